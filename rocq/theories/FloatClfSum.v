(** * FloatClfSum: rounding errors of sums and quotients of nonnegative float64 numbers. *)
From Coq Require Import Reals Lra Permutation Psatz.
From Flocq Require Import Core BinarySingleNaN Relative Plus_error.
From Verif Require Import Prelude RealOps ClfSpec FloatFeat FloatReg FloatSum FloatNG.
Local Open Scope R_scope.

(** Half the distance of 1 to the next number. *)
Definition u53 : R := b2 (-53).
Lemma u53_val : u53 = / 9007199254740992. Proof. reflexivity. Qed.

Lemma add_rel a b : fmt64 a -> fmt64 b -> Rabs (RN64 (a + b) - (a + b)) <= u53 * Rabs (a + b).
Proof.
  intros Ha Hb. destruct (Rle_or_lt (b2 (-1022)) (Rabs (a + b))) as [H|H]; [apply RN64_rel, H|].
  rewrite RN64_fmt.
  - replace (a + b - (a + b)) with 0 by lra. rewrite Rabs_R0. apply Rmult_le_pos; [left; apply b2_pos|apply Rabs_pos].
  - rewrite fexp64_FLT in *. apply FLT_format_plus_small; auto; try exact (eq_refl : Prec_gt_0 53).
    left. eapply Rlt_le_trans; [exact H|]. apply b2_le. lia.
Qed.
Lemma RN64_err x : Rabs (RN64 x - x) <= u53 * Rabs x + b2 (-1075).
Proof.
  destruct (error_N_FLT radix2 (-1074) 53 eq_refl (fun x => negb (Z.even x)) x) as (eps & eta & H1 & H2 & _ & H4).
  change (FLT_exp (-1074) 53) with fexp64 in H4. rewrite H4. replace (x * (1 + eps) + eta - x) with (x * eps + eta) by ring.
  eapply Rle_trans; [apply Rabs_triang|]. rewrite Rabs_mult.
  assert (E : / 2 * b2 (- (53) + 1) = u53) by (unfold u53; rewrite bpow_plus; simpl; lra). rewrite E in H1.
  replace (/ 2 * b2 (-1074)) with (b2 (-1075)) in H2 by (change (b2 (-1075)) with (b2 (-1 + -1074)); rewrite bpow_plus; simpl; lra).
  apply Rplus_le_compat; [rewrite Rmult_comm; apply Rmult_le_compat_r; [apply Rabs_pos|exact H1]|exact H2].
Qed.

Definition vals (l : list float64) : list R := map B2R l.
Definition nonneg_fin (a : float64) : Prop := is_finite a = true /\ 0 <= B2R a.

Lemma vsum_app' (l l' : list R) : vsum (l ++ l') = vsum l + vsum l'.
Proof. induction l as [|a l IH]; simpl; [lra|]. unfold vsum in *. simpl in *. lra. Qed.
Lemma vsum_perm' (l l' : list R) : Permutation l l' -> vsum l = vsum l'.
Proof. induction 1; unfold vsum in *; simpl in *; lra. Qed.
Lemma vsum_nonneg l : Forall nonneg_fin l -> 0 <= vsum (vals l).
Proof. induction 1 as [|a l [_ Ha] H IH]; unfold vsum, vals in *; simpl in *; lra. Qed.

(** A sum of at most 2^20 nonnegative numbers, in any order. *)
Lemma sum_err l a : sum_of l a -> Forall nonneg_fin l -> vsum (vals l) <= b2 950 -> INR (length l) <= b2 20 ->
  nonneg_fin a /\ vsum (vals l) * (1 - INR (length l) * u53) <= B2R a <= vsum (vals l) * (1 + 2 * INR (length l) * u53) /\
  Forall (fun x => B2R x <= B2R a) l.
Proof.
  induction 1 as [|a|l l1 l2 a b Hp H1 IH1 H2 IH2]; intros Hn Hb Hl.
  - split; [split; [reflexivity|simpl; lra]|]. split; [simpl; lra|constructor].
  - inversion Hn as [|? ? Ha _]; subst. destruct Ha as [Fa Ha]. split; [split; auto|]. split; [|repeat constructor; lra].
    unfold vals. simpl. pose proof (b2_pos (-53)) as Hu. fold u53 in Hu. nra.
  - assert (Hn' : Forall nonneg_fin (l1 ++ l2)) by (eapply Permutation_Forall; eauto).
    apply Forall_app in Hn' as [Hn1 Hn2].
    assert (Ev : vsum (vals l) = vsum (vals l1) + vsum (vals l2)).
    { unfold vals. rewrite (vsum_perm' _ _ (Permutation_map B2R Hp)), map_app, vsum_app'. reflexivity. }
    assert (El : INR (length l) = INR (length l1) + INR (length l2)) by (rewrite (Permutation_length Hp), app_length, plus_INR; reflexivity).
    pose proof (vsum_nonneg l1 Hn1) as V1. pose proof (vsum_nonneg l2 Hn2) as V2.
    pose proof (pos_INR (length l1)) as P1. pose proof (pos_INR (length l2)) as P2.
    destruct (IH1 Hn1) as ([Fa Ga] & Ba & Ma); [lra|lra|]. destruct (IH2 Hn2) as ([Fb Gb] & Bb & Mb); [lra|lra|]. clear IH1 IH2.
    set (m1 := INR (length l1)) in *. set (m2 := INR (length l2)) in *. set (s1 := vsum (vals l1)) in *. set (s2 := vsum (vals l2)) in *.
    rewrite Ev, El in *. clear Ev.
    assert (Hu : 0 < u53 <= / 9007199254740992) by (rewrite u53_val; lra).
    assert (HN : b2 20 = 1048576) by reflexivity. rewrite HN in Hl.
    assert (Hs : B2R a + B2R b <= b2 951).
    { change (b2 951) with (b2 (1 + 950)). rewrite bpow_plus. change (b2 1) with 2.
      assert (2 * m1 * u53 <= 1 /\ 2 * m2 * u53 <= 1) as [K1 K2] by (split; nra). nra. }
    destruct (add_ok a b Fa Fb) as [Fc Ec].
    { rewrite Rabs_pos_eq by lra. eapply Rle_trans; [exact Hs|]. apply b2_le. lia. }
    pose proof (add_rel (B2R a) (B2R b) (fmt_B2R a) (fmt_B2R b)) as R1. rewrite <- Ec, (Rabs_pos_eq (B2R a + B2R b)) in R1 by lra.
    assert (G : B2R a <= B2R (f_add a b) /\ B2R b <= B2R (f_add a b)).
    { rewrite Ec. split; [rewrite <- (RN64_fmt (B2R a)) at 1 by apply fmt_B2R|rewrite <- (RN64_fmt (B2R b)) at 1 by apply fmt_B2R]; apply RN64_le; lra. }
    split; [split; [exact Fc|lra]|]. split.
    2:{ apply (Permutation_Forall (Permutation_sym Hp)). apply Forall_app. split.
        - eapply Forall_impl; [|exact Ma]. cbv beta. intros x Hx. lra.
        - eapply Forall_impl; [|exact Mb]. cbv beta. intros x Hx. lra. }
    (* nothing on one side: exact *)
    destruct (Nat.eq_dec (length l1) 0) as [Z1|Z1].
    { assert (s1 = 0) as E0 by (unfold s1; destruct l1; [reflexivity|discriminate]). assert (m1 = 0) as E1 by (unfold m1; rewrite Z1; reflexivity).
      rewrite E0, E1 in *. assert (B2R a = 0) by nra. rewrite H, Rplus_0_l in Ec. rewrite RN64_fmt in Ec by apply fmt_B2R. rewrite Ec. rewrite !Rplus_0_l. lra. }
    destruct (Nat.eq_dec (length l2) 0) as [Z2|Z2].
    { assert (s2 = 0) as E0 by (unfold s2; destruct l2; [reflexivity|discriminate]). assert (m2 = 0) as E1 by (unfold m2; rewrite Z2; reflexivity).
      rewrite E0, E1 in *. assert (B2R b = 0) by nra. rewrite H, Rplus_0_r in Ec. rewrite RN64_fmt in Ec by apply fmt_B2R. rewrite Ec. rewrite !Rplus_0_r. lra. }
    assert (M1 : 1 <= m1) by (apply (le_INR 1); lia). assert (M2 : 1 <= m2) by (apply (le_INR 1); lia).
    apply Rabs_le_inv in R1. set (t := B2R a + B2R b) in *. set (c := B2R (f_add a b)) in *.
    assert (T1 : t <= (s1 + s2) * (1 + 2 * (m1 + m2 - 1) * u53)).
    { unfold t. assert (2 * m1 * u53 <= 2 * (m1 + m2 - 1) * u53) by nra. assert (2 * m2 * u53 <= 2 * (m1 + m2 - 1) * u53) by nra. nra. }
    assert (T2 : (s1 + s2) * (1 - (m1 + m2 - 1) * u53) <= t).
    { unfold t. assert (m1 * u53 <= (m1 + m2 - 1) * u53) by nra. assert (m2 * u53 <= (m1 + m2 - 1) * u53) by nra. nra. }
    assert (J : 0 <= (m1 + m2 - 1) * u53 <= / 4) by (split; nra).
    set (j := (m1 + m2 - 1) * u53) in *.
    replace (2 * (m1 + m2) * u53) with (2 * j + 2 * u53) by (unfold j; ring). replace ((m1 + m2) * u53) with (j + u53) by (unfold j; ring).
    replace (2 * (m1 + m2 - 1) * u53) with (2 * j) in T1 by (unfold j; ring).
    split.
    + apply Rle_trans with (t * (1 - u53)); [|lra]. apply Rle_trans with ((s1 + s2) * (1 - j) * (1 - u53)); [rewrite Rmult_assoc; apply Rmult_le_compat_l; [lra|]; nra|]. apply Rmult_le_compat_r; lra.
    + apply Rle_trans with (t * (1 + u53)); [lra|]. apply Rle_trans with ((s1 + s2) * (1 + 2 * j) * (1 + u53)); [apply Rmult_le_compat_r; lra|].
      rewrite Rmult_assoc. apply Rmult_le_compat_l; [lra|]. nra.
Qed.
