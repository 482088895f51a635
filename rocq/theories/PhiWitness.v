(** * PhiWitness: with a power function that is off by less than one unit in the last place the loop may run forever. *)
From Coq Require Import Reals Lra Psatz.
From Flocq Require Import Core.
From Verif Require Import Prelude RealOps Phi PhiProofs.
Local Open Scope R_scope.
Local Instance prec53' : Prec_gt_0 53 := eq_refl.

(** Floats between 1 and 2 and between 2 and 4 by their significands. *)
Definition x_of (m : Z) : R := IZR m * bpow radix2 (-52).
Definition u_of (k : Z) : R := IZR k * bpow radix2 (-51).
(** Half of an integer, rounded to nearest, ties to even. *)
Definition half_even (j : Z) : Z := if Z.even j then (j / 2)%Z else (if Z.even (j / 2) then j / 2 else j / 2 + 1)%Z.

Lemma znearest_half j : ZnearestE (IZR j * / 2) = half_even j.
Proof.
  unfold half_even. pose proof (Z.div_mod j 2 ltac:(lia)) as E. pose proof (Zmod_even j) as E2.
  set (q := (j / 2)%Z) in *. destruct (Z.even j).
  - rewrite E at 1. rewrite E2, Z.add_0_r, mult_IZR. replace (2 * IZR q * / 2) with (IZR q) by field. apply Zrnd_IZR. auto with typeclass_instances.
  - assert (Er : IZR j * / 2 = IZR q + / 2) by (rewrite E at 1; rewrite E2, plus_IZR, mult_IZR; field).
    assert (Ef : Zfloor (IZR j * / 2) = q) by (apply Zfloor_imp; rewrite Er, plus_IZR; lra).
    unfold Znearest. rewrite Ef, Er. rewrite Rcompare_Eq by ring.
    assert (Ec : Zceil (IZR q + / 2) = (q + 1)%Z) by (apply Zceil_imp; rewrite minus_IZR, plus_IZR; lra). rewrite Ec.
    destruct (Z.even q); reflexivity.
Qed.

Lemma x_of_bounds m : (2 ^ 52 <= m <= 2 ^ 53)%Z -> 1 <= x_of m <= 2.
Proof.
  intros H. unfold x_of. assert (IZR (2 ^ 52) <= IZR m <= IZR (2 ^ 53)) by (split; apply IZR_le; lia).
  assert (H52 : IZR (2 ^ 52) * bpow radix2 (-52) = 1) by (change (2 ^ 52)%Z with (radix2 ^ 52)%Z; rewrite (IZR_Zpower radix2 52), <- bpow_plus by lia; reflexivity).
  assert (H53 : IZR (2 ^ 53) * bpow radix2 (-52) = 2) by (change (2 ^ 53)%Z with (radix2 ^ 53)%Z; rewrite (IZR_Zpower radix2 53), <- bpow_plus by lia; reflexivity).
  assert (0 < bpow radix2 (-52)) by apply bpow_gt_0. nra.
Qed.
Lemma x_of_f m : (2 ^ 52 <= m < 2 ^ 53)%Z -> is_f64 (x_of m).
Proof. intros H. apply f64_2pow; lia. Qed.
Lemma x_of_inj m m' : x_of m = x_of m' -> m = m'.
Proof. unfold x_of. intros E. apply Rmult_eq_reg_r in E; [apply eq_IZR; auto|]. pose proof (bpow_gt_0 radix2 (-52)). lra. Qed.
Lemma u_of_inj m m' : u_of m = u_of m' -> m = m'.
Proof. unfold u_of. intros E. apply Rmult_eq_reg_r in E; [apply eq_IZR; auto|]. pose proof (bpow_gt_0 radix2 (-51)). lra. Qed.

Lemma plus1_x m : (2 ^ 52 <= m <= 2 ^ 53)%Z -> plus1_f (x_of m) = u_of (half_even (m + 2 ^ 52)).
Proof.
  intros Hm. pose proof (x_of_bounds m Hm) as Hx. unfold plus1_f, f64, round, F2R. cbn [Fnum Fexp].
  assert (Ec : cexp radix2 f64_exp (1 + x_of m) = (-51)%Z).
  { unfold cexp. rewrite (mag_unique_pos radix2 _ 2); [reflexivity|]. simpl. lra. }
  unfold u_of. f_equal; [|rewrite Ec; auto]. f_equal. rewrite <- znearest_half. f_equal. unfold scaled_mantissa. rewrite Ec.
  rewrite plus_IZR. unfold x_of.
  assert (H52 : IZR (2 ^ 52) * bpow radix2 (-52) = 1) by (change (2 ^ 52)%Z with (radix2 ^ 52)%Z; rewrite (IZR_Zpower radix2 52), <- bpow_plus by lia; reflexivity).
  assert (H51 : bpow radix2 (-52) * bpow radix2 51 = / 2) by (rewrite <- bpow_plus; reflexivity).
  change (- -51)%Z with 51%Z. rewrite <- H52, <- H51. ring.
Qed.

(** The exponent 1/128 is a float. *)
Lemma expo_127 : f64 (1 / INR (127 + 1)) = bpow radix2 (-7).
Proof.
  replace (1 / INR (127 + 1)) with (bpow radix2 (-7)); [apply f64_id, f64_bpow; lia|]. rewrite INR_IZR_INZ. simpl. lra.
Qed.
Lemma root_127 u : 0 < u -> Rpower u (bpow radix2 (-7)) ^ 128 = u.
Proof.
  intros Hu. pose proof (root_pow 127 u Hu) as H. replace (1 / INR (127 + 1)) with (bpow radix2 (-7)) in H by (rewrite INR_IZR_INZ; simpl; lra). exact H.
Qed.

(** Comparing the root of [u_of k] with a multiple of 2^-53. *)
Lemma bpow_nat e n : bpow radix2 e ^ n = bpow radix2 (e * Z.of_nat n).
Proof. induction n as [|n IH]; [rewrite Z.mul_0_r; reflexivity|]. rewrite <- tech_pow_Rmult, IH, <- bpow_plus. f_equal. lia. Qed.
Lemma scaled_pow (a : Z) : (IZR a * bpow radix2 (-53)) ^ 128 = IZR (a ^ 128) * bpow radix2 (-6784).
Proof. rewrite Rpow_mult_distr, pow_IZR, bpow_nat. reflexivity. Qed.
Lemma u_scaled k : u_of k = IZR (k * 2 ^ 6733) * bpow radix2 (-6784).
Proof.
  unfold u_of. rewrite mult_IZR. change (2 ^ 6733)%Z with (radix2 ^ 6733)%Z. rewrite (IZR_Zpower radix2) by lia.
  rewrite Rmult_assoc, <- bpow_plus. reflexivity.
Qed.
Definition root127 (k : Z) : R := Rpower (u_of k) (bpow radix2 (-7)).
Lemma root_above k a : (0 < k)%Z -> (0 <= a)%Z -> (a ^ 128 < k * 2 ^ 6733)%Z -> IZR a * bpow radix2 (-53) < root127 k.
Proof.
  intros Hk Ha H. pose proof (bpow_gt_0 radix2 (-53)). pose proof (bpow_gt_0 radix2 (-6784)). pose proof (IZR_le _ _ Ha). apply (pow_lt_inv 128); [clear H; nra|left; apply exp_pos|].
  unfold root127. rewrite root_127 by (clear H; unfold u_of; apply IZR_lt in Hk; pose proof (bpow_gt_0 radix2 (-51)); nra).
  rewrite scaled_pow, u_scaled. apply Rmult_lt_compat_r; auto. apply IZR_lt; auto.
Qed.
Lemma root_below k a : (0 < k)%Z -> (0 <= a)%Z -> (k * 2 ^ 6733 < a ^ 128)%Z -> root127 k < IZR a * bpow radix2 (-53).
Proof.
  intros Hk Ha H. pose proof (bpow_gt_0 radix2 (-53)). pose proof (bpow_gt_0 radix2 (-6784)). pose proof (IZR_le _ _ Ha). apply (pow_lt_inv 128); [left; apply exp_pos|clear H; nra|].
  unfold root127. rewrite root_127 by (clear H; unfold u_of; apply IZR_lt in Hk; pose proof (bpow_gt_0 radix2 (-51)); nra).
  rewrite scaled_pow, u_scaled. apply Rmult_lt_compat_r; auto. apply IZR_lt; auto.
Qed.

Lemma x_53 m : x_of m = IZR (2 * m) * bpow radix2 (-53).
Proof. unfold x_of. rewrite mult_IZR. change (bpow radix2 (-52)) with (bpow radix2 (1 + -53)). rewrite bpow_plus. change (bpow radix2 1) with 2. ring. Qed.

(** Bounds of [a ^ 128] by seven squarings with shortened significands: a pair (m, s) stands for m * 2^s. *)
Definition sq_up (p : Z * Z) (t : Z) : Z * Z := (fst p * fst p / 2 ^ t + 1, 2 * snd p + t)%Z.
Definition sq_down (p : Z * Z) (t : Z) : Z * Z := (fst p * fst p / 2 ^ t, 2 * snd p + t)%Z.
Definition cuts : list Z := [20; 86; 86; 86; 86; 86; 86]%Z.
Definition bound_up (a : Z) : Z * Z := fold_left sq_up cuts (a, 0%Z).
Definition bound_down (a : Z) : Z * Z := fold_left sq_down cuts (a, 0%Z).
Definition val (p : Z * Z) : Z := (2 ^ snd p * fst p)%Z.

Lemma val_sq s t : (0 <= s)%Z -> (0 <= t)%Z -> (2 ^ (2 * s + t) = 2 ^ s * 2 ^ s * 2 ^ t)%Z.
Proof. intros Hs Ht. replace (2 * s + t)%Z with (s + s + t)%Z by lia. rewrite !Z.pow_add_r by lia. reflexivity. Qed.
Lemma up_sound ts p v : Forall (fun t => 0 <= t)%Z ts -> (0 <= snd p)%Z -> (0 <= v <= val p)%Z -> (0 <= fst p)%Z ->
  (v ^ (2 ^ Z.of_nat (length ts)) <= val (fold_left sq_up ts p))%Z.
Proof.
  revert p v. induction ts as [|t ts IH]; intros [m s] v Ht Hs Hv Hm; cbn [fst snd fold_left length] in *; [change (2 ^ Z.of_nat 0)%Z with 1%Z; rewrite Z.pow_1_r; tauto|].
  inversion Ht; subst. rewrite Nat2Z.inj_succ, Z.pow_succ_r, Z.pow_mul_r by lia. unfold val in Hv. cbn [fst snd] in Hv.
  pose proof (Z.pow_pos_nonneg 2 t ltac:(lia) ltac:(auto)) as Pt. pose proof (Z.pow_pos_nonneg 2 s ltac:(lia) Hs) as Ps.
  assert (D : (0 <= m * m / 2 ^ t)%Z) by (apply Z.div_pos; nia).
  apply IH; auto; unfold sq_up, val; cbn [fst snd]; [lia| |lia].
  rewrite val_sq by auto. rewrite Z.pow_2_r. pose proof (Z.mul_succ_div_gt (m * m) (2 ^ t) Pt) as G. unfold Z.succ in G.
  split; [nia|]. apply Z.le_trans with ((2 ^ s * m) * (2 ^ s * m))%Z; [nia|].
  replace (2 ^ s * m * (2 ^ s * m))%Z with (2 ^ s * 2 ^ s * (m * m))%Z by ring.
  rewrite <- (Z.mul_assoc (2 ^ s * 2 ^ s) (2 ^ t)). apply Z.mul_le_mono_nonneg_l; [nia|lia].
Qed.
Lemma down_sound ts p v : Forall (fun t => 0 <= t)%Z ts -> (0 <= snd p)%Z -> (val p <= v)%Z -> (0 <= fst p)%Z ->
  (val (fold_left sq_down ts p) <= v ^ (2 ^ Z.of_nat (length ts)))%Z.
Proof.
  revert p v. induction ts as [|t ts IH]; intros [m s] v Ht Hs Hv Hm; cbn [fst snd fold_left length] in *; [change (2 ^ Z.of_nat 0)%Z with 1%Z; rewrite Z.pow_1_r; tauto|].
  inversion Ht; subst. rewrite Nat2Z.inj_succ, Z.pow_succ_r, Z.pow_mul_r by lia. unfold val in Hv. cbn [fst snd] in Hv.
  pose proof (Z.pow_pos_nonneg 2 t ltac:(lia) ltac:(auto)) as Pt. pose proof (Z.pow_pos_nonneg 2 s ltac:(lia) Hs) as Ps.
  assert (D : (0 <= m * m / 2 ^ t)%Z) by (apply Z.div_pos; nia).
  apply IH; auto; unfold sq_down, val; cbn [fst snd]; [lia|].
  rewrite val_sq by auto. rewrite Z.pow_2_r. pose proof (Z.mul_div_le (m * m) (2 ^ t) Pt) as G.
  apply Z.le_trans with ((2 ^ s * m) * (2 ^ s * m))%Z; [|apply Z.mul_le_mono_nonneg; nia].
  replace (2 ^ s * m * (2 ^ s * m))%Z with (2 ^ s * 2 ^ s * (m * m))%Z by ring.
  rewrite <- (Z.mul_assoc (2 ^ s * 2 ^ s) (2 ^ t)). apply Z.mul_le_mono_nonneg_l; [nia|lia].
Qed.
Lemma cuts_ok : Forall (fun t => 0 <= t)%Z cuts.
Proof. repeat constructor; lia. Qed.
Definition below (a k : Z) : bool := (val (bound_up a) <? 2 ^ 6733 * k)%Z.
Definition above (a k : Z) : bool := (2 ^ 6733 * k <? val (bound_down a))%Z.
Lemma below_sound a k : (0 <= a)%Z -> below a k = true -> (a ^ 128 < k * 2 ^ 6733)%Z.
Proof.
  unfold below, bound_up. intros Ha H. apply Z.ltb_lt in H. rewrite (Z.mul_comm k). refine (Z.le_lt_trans _ _ _ _ H).
  refine (up_sound cuts (a, 0%Z) a cuts_ok _ _ _); unfold val; cbn [fst snd]; rewrite ?Z.pow_0_r, ?Z.mul_1_l; lia.
Qed.
Lemma above_sound a k : (0 <= a)%Z -> above a k = true -> (k * 2 ^ 6733 < a ^ 128)%Z.
Proof.
  unfold above, bound_down. intros Ha H. apply Z.ltb_lt in H. rewrite (Z.mul_comm k). refine (Z.lt_le_trans _ _ _ H _).
  refine (down_sound cuts (a, 0%Z) a cuts_ok _ _ _); unfold val; cbn [fst snd]; rewrite ?Z.pow_0_r, ?Z.mul_1_l; lia.
Qed.

(** One correctly rounded root. *)
Definition step_ok (k m : Z) : bool := below (2 * m - 1) k && above (2 * m + 1) k.
Lemma step_bounds k m : (2 ^ 52 <= k)%Z -> (2 ^ 52 <= m)%Z -> step_ok k m = true ->
  IZR (2 * m - 1) * bpow radix2 (-53) < root127 k < IZR (2 * m + 1) * bpow radix2 (-53).
Proof.
  intros Hk Hm. assert (K0 : (0 < k)%Z) by lia. assert (K1 : (0 <= 2 * m - 1)%Z) by lia. assert (K2 : (0 <= 2 * m + 1)%Z) by lia.
  unfold step_ok. intros H. apply andb_true_iff in H. destruct H as [H1 H2].
  exact (conj (root_above k _ K0 K1 (below_sound _ _ K1 H1)) (root_below k _ K0 K2 (above_sound _ _ K2 H2))).
Qed.
Lemma u_of_bounds k : (2 ^ 52 <= k <= 3 * 2 ^ 51)%Z -> 2 <= u_of k <= 3.
Proof.
  intros Hk. unfold u_of. assert (IZR (2 ^ 52) <= IZR k <= IZR (3 * 2 ^ 51)) by (split; apply IZR_le; lia).
  assert (E1 : IZR (2 ^ 52) * bpow radix2 (-51) = 2) by (change (2 ^ 52)%Z with (radix2 ^ 52)%Z; rewrite (IZR_Zpower radix2 52), <- bpow_plus by lia; reflexivity).
  assert (E2 : IZR (3 * 2 ^ 51) * bpow radix2 (-51) = 3).
  { rewrite mult_IZR. change (2 ^ 51)%Z with (radix2 ^ 51)%Z. rewrite (IZR_Zpower radix2 51), Rmult_assoc, <- bpow_plus by lia. simpl. lra. }
  assert (0 < bpow radix2 (-51)) by apply bpow_gt_0. nra.
Qed.
Lemma near_round r m : 1 <= r <= 7 / 4 -> IZR (2 * m - 1) * bpow radix2 (-53) < r < IZR (2 * m + 1) * bpow radix2 (-53) -> f64 r = x_of m.
Proof.
  intros Hr [H1 H2].
  assert (He : Rabs (f64 r - r) <= bpow radix2 (-53)) by (apply (half_ulp_le _ 1); [simpl; lra|lia]).
  assert (Hf : 1 <= f64 r <= 2).
  { pose proof (f64_id 1 f64_1). pose proof (f64_id 2 f64_2). split; [apply Rle_trans with (f64 1)|apply Rle_trans with (f64 2)]; try lra; apply f64_le; lra. }
  destruct (f64_grid _ (f64_is r) Hf) as [m' Em']. fold (x_of m') in Em'. rewrite Em' in *. f_equal.
  rewrite minus_IZR in H1. rewrite plus_IZR in H2. rewrite x_53 in He. apply Rabs_le_inv in He. pose proof (bpow_gt_0 radix2 (-53)).
  rewrite mult_IZR in *.
  assert (IZR (m' - m) < 1 /\ -1 < IZR (m' - m)) as [G1 G2] by (rewrite minus_IZR; split; apply (Rmult_lt_reg_r (bpow radix2 (-53))); lra).
  apply lt_IZR in G1. apply (lt_IZR (-1)) in G2. lia.
Qed.
Lemma step_sound k m : (2 ^ 52 <= k <= 3 * 2 ^ 51)%Z -> (2 ^ 52 <= m < 2 ^ 53)%Z -> step_ok k m = true -> pow_f 127 (u_of k) = x_of m.
Proof.
  intros Hk Hm H. unfold pow_f. rewrite expo_127. apply near_round; [|apply step_bounds; tauto].
  apply root_range; [simpl; lra|apply u_of_bounds; auto].
Qed.

(** ** The power function and its cycle *)
Definition m_a : Z := 4528150018549649.
Definition m_b : Z := 4528150018549650.
Definition k_a : Z := 4515874822960072.
Definition k_b : Z := 4515874822960073.
Definition pow_bad (x : R) : R := if Reqb x (u_of k_a) then x_of m_b else if Reqb x (u_of k_b) then x_of m_a else pow_f 127 x.

Lemma bad_a : pow_bad (u_of k_a) = x_of m_b.
Proof. unfold pow_bad. destruct (Reqb_spec (u_of k_a) (u_of k_a)); tauto. Qed.
Lemma bad_b : pow_bad (u_of k_b) = x_of m_a.
Proof.
  unfold pow_bad. destruct (Reqb_spec (u_of k_b) (u_of k_a)) as [E|_]; [apply u_of_inj in E; discriminate|].
  destruct (Reqb_spec (u_of k_b) (u_of k_b)); tauto.
Qed.
Lemma bad_other k : k <> k_a -> k <> k_b -> pow_bad (u_of k) = pow_f 127 (u_of k).
Proof.
  intros Ha Hb. unfold pow_bad. destruct (Reqb_spec (u_of k) (u_of k_a)) as [E|_]; [apply u_of_inj in E; tauto|].
  destruct (Reqb_spec (u_of k) (u_of k_b)) as [E|_]; [apply u_of_inj in E; tauto|]. auto.
Qed.
Lemma cycle fuel : phi_loop plus1_f pow_bad fuel (x_of m_a) = Err OutOfFuel /\ phi_loop plus1_f pow_bad fuel (x_of m_b) = Err OutOfFuel.
Proof.
  induction fuel as [|fuel [IHa IHb]]; [split; reflexivity|]. cbn [phi_loop].
  rewrite (plus1_x m_a), (plus1_x m_b) by (unfold m_a, m_b; lia).
  change (half_even (m_a + 2 ^ 52)) with k_a. change (half_even (m_b + 2 ^ 52)) with k_b. rewrite bad_a, bad_b.
  split; match goal with |- context [Reqb ?x ?y] => destruct (Reqb_spec x y) as [E|_]; [apply x_of_inj in E; discriminate|auto] end.
Qed.

(** The iterates from 2 down to the cycle. *)
Definition path_to : list Z := [9007199254740992; 4542419968321279; 4528205868296275; 4528150237305069; 4528150019406485; 4528150018553005; 4528150018549662; 4528150018549649]%Z.
Definition in_range (m : Z) : bool := (2 ^ 52 <=? m)%Z && (m <=? 2 ^ 53)%Z.
Fixpoint path_ok (l : list Z) : bool :=
  match l with
  | [] => false
  | m :: l' => in_range m &&
      match l' with
      | [] => Z.eqb m m_a
      | m' :: _ => let k := half_even (m + 2 ^ 52) in
          (m' <? m)%Z && (m' <? 2 ^ 53)%Z && negb (Z.eqb k k_a) && negb (Z.eqb k k_b) && (2 ^ 52 <=? k)%Z && (k <=? 3 * 2 ^ 51)%Z && step_ok k m' && path_ok l'
      end
  end.
Lemma path_sound l fuel : path_ok l = true -> phi_loop plus1_f pow_bad fuel (x_of (hd m_a l)) = Err OutOfFuel.
Proof.
  revert fuel. induction l as [|m l IH]; intros fuel H; [discriminate|]. cbn [path_ok hd] in *. apply andb_true_iff in H. destruct H as [Hr H].
  destruct l as [|m' l]; [apply Z.eqb_eq in H; subst; apply cycle|]. destruct fuel as [|fuel]; auto.
  apply andb_true_iff in H. destruct H as [H Hl]. apply andb_true_iff in H. destruct H as [H S]. apply andb_true_iff in H. destruct H as [H K2].
  apply andb_true_iff in H. destruct H as [H K1]. apply andb_true_iff in H. destruct H as [H Nb]. apply andb_true_iff in H. destruct H as [H Na].
  apply andb_true_iff in H. destruct H as [M1 M2]. pose proof (IH fuel Hl) as IHf. cbn [hd] in IHf.
  unfold in_range in Hr. apply andb_true_iff in Hr. destruct Hr as [Hr1 Hr2].
  assert (Hp : (2 ^ 52 <= m')%Z).
  { cbn [path_ok] in Hl. apply andb_true_iff in Hl. destruct Hl as [P _]. unfold in_range in P. apply andb_true_iff in P. apply Z.leb_le. tauto. }
  clear Hl IH. apply negb_true_iff, Z.eqb_neq in Na. apply negb_true_iff, Z.eqb_neq in Nb. apply Z.leb_le in K1, K2, Hr1, Hr2. apply Z.ltb_lt in M1, M2.
  cbn [phi_loop]. rewrite plus1_x by (split; auto). rewrite bad_other by auto. rewrite (step_sound _ m' (conj K1 K2) (conj Hp M2) S).
  destruct (Reqb_spec (x_of m') (x_of m)) as [E|_]; [apply x_of_inj in E; clear -E M1; lia|auto].
Qed.
Lemma bad_never fuel : phi_loop plus1_f pow_bad fuel 2 = Err OutOfFuel.
Proof.
  replace 2 with (x_of (hd m_a path_to)); [apply path_sound; vm_compute; reflexivity|].
  unfold x_of. change (hd m_a path_to) with (radix2 ^ 53)%Z. rewrite (IZR_Zpower radix2 53), <- bpow_plus by lia. reflexivity.
Qed.

(** It is off by less than one unit in the last place. *)
Lemma bad_close : (Rabs (x_of m_b - root127 k_a) < bpow radix2 (-52)) /\ Rabs (x_of m_a - root127 k_b) < bpow radix2 (-52).
Proof.
  assert (E : bpow radix2 (-52) = 2 * bpow radix2 (-53)) by (change 2 with (bpow radix2 1); rewrite <- bpow_plus; reflexivity).
  assert (Ha : x_of m_b - bpow radix2 (-52) < root127 k_a < x_of m_b + bpow radix2 (-52)).
  { replace (x_of m_b - bpow radix2 (-52)) with (IZR (2 * m_b - 2) * bpow radix2 (-53)) by (rewrite E, x_53, minus_IZR; ring).
    replace (x_of m_b + bpow radix2 (-52)) with (IZR (2 * m_b + 2) * bpow radix2 (-53)) by (rewrite E, x_53, plus_IZR; ring).
    split; [apply root_above; [reflexivity|discriminate|apply below_sound; [discriminate|vm_compute; reflexivity]]|apply root_below; [reflexivity|discriminate|apply above_sound; [discriminate|vm_compute; reflexivity]]]. }
  assert (Hb : x_of m_a - bpow radix2 (-52) < root127 k_b < x_of m_a + bpow radix2 (-52)).
  { replace (x_of m_a - bpow radix2 (-52)) with (IZR (2 * m_a - 2) * bpow radix2 (-53)) by (rewrite E, x_53, minus_IZR; ring).
    replace (x_of m_a + bpow radix2 (-52)) with (IZR (2 * m_a + 2) * bpow radix2 (-53)) by (rewrite E, x_53, plus_IZR; ring).
    split; [apply root_above; [reflexivity|discriminate|apply below_sound; [discriminate|vm_compute; reflexivity]]|apply root_below; [reflexivity|discriminate|apply above_sound; [discriminate|vm_compute; reflexivity]]]. }
  split; apply Rabs_lt; lra.
Qed.

Theorem bad_pow : exists n pw, (0 < n)%nat /\
  (forall x, 2 <= x <= 3 -> is_f64 x -> is_f64 (pw x) /\ 1 <= pw x <= 2 /\ Rabs (pw x - Rpower x (f64 (1 / INR (n + 1)))) < bpow radix2 (-52)) /\
  forall fuel, phi_loop plus1_f pw fuel 2 = Err OutOfFuel.
Proof.
  exists 127%nat, pow_bad. split; [lia|]. split; [|exact bad_never]. intros x Hx Hf. rewrite expo_127.
  destruct bad_close as [Ca Cb]. unfold pow_bad.
  assert (Ga : (2 ^ 52 <= m_a < 2 ^ 53)%Z) by (split; reflexivity || (vm_compute; discriminate)).
  assert (Gb : (2 ^ 52 <= m_b < 2 ^ 53)%Z) by (split; reflexivity || (vm_compute; discriminate)).
  destruct (Reqb_spec x (u_of k_a)) as [->|_]; [split; [apply x_of_f; auto|split; [apply x_of_bounds; lia|auto]]|].
  destruct (Reqb_spec x (u_of k_b)) as [->|_]; [split; [apply x_of_f; auto|split; [apply x_of_bounds; lia|auto]]|].
  destruct (pow_f_ok 127 ltac:(lia)) as (P1 & _ & P3). split; [auto|]. split; [auto|].
  unfold pow_f. rewrite expo_127.
  assert (Hr : 1 <= Rpower x (bpow radix2 (-7)) <= 7 / 4) by (apply root_range; [simpl; lra|auto]).
  apply Rle_lt_trans with (bpow radix2 (-53)); [apply (half_ulp_le _ 1); [change (bpow radix2 1) with 2; lra|lia]|apply bpow_lt; lia].
Qed.
