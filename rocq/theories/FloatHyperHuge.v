(** * FloatHyperHuge: candidates whose norm overflows in float64. *)
From Coq Require Import Reals Lra Permutation.
From Flocq Require Import Core BinarySingleNaN.
From Verif Require Import Prelude Lists Tree Perp RealOps Api Hyper HyperProofs HyperLemmas
  FloatFeat FloatReg FloatSum FloatNG FloatClf FloatClfSum FloatHyper FloatHyperDot FloatHyperFit FloatHyperEx.
Local Open Scope R_scope.

(** An entry of absolute value at least 2^512, or infinite: its square is not a float64 number. *)
Definition huge (a : float64) : Prop := (exists s, a = B754_infinity s) \/ b2 512 <= Rabs (B2R a).
Definition huge_vec (v : list float64) : Prop := exists a, In a v /\ huge a.
Definition zero64 (x : float64) : Prop := is_finite x = true /\ B2R x = 0.

Lemma zero64_inv x : zero64 x -> exists s, x = B754_zero s.
Proof. intros [F Z]. destruct x as [s|s| |s m e He]; try discriminate; [eauto|]. exfalso. revert Z. cbn. destruct s; apply F2R_neq_0; discriminate. Qed.
Lemma zero_back c m : zero64 c -> zero64 m -> Bltb (f_sub m c) f_zero = false.
Proof. intros Hc Hm. apply zero64_inv in Hc as [s ->]. apply zero64_inv in Hm as [s' ->]. destruct s, s'; reflexivity. Qed.

(** A dot product of finite numbers with one factor 0 in each product. *)
Lemma dot_zero l x : dot_of l x -> Forall (fun p => is_finite (fst p) = true /\ is_finite (snd p) = true /\ B2R (fst p) * B2R (snd p) = 0) l -> zero64 x.
Proof.
  unfold zero64. induction 1 as [|a b|l l' x x' H1 IH1 H2 IH2|a b l x H IH|l l' x Hp H IH]; intros Hf.
  - split; reflexivity.
  - inversion Hf as [|? ? (Fa & Fb & E0) _]; subst. cbn [fst snd] in *. destruct (mul_ok a b Fa Fb) as [F E]; [rewrite E0, Rabs_R0; apply Rlt_le, b2_pos|].
    split; [exact F|]. rewrite E, E0. apply RN64_0.
  - apply Forall_app in Hf as [Hf1 Hf2]. destruct (IH1 Hf1) as [F1 E1]. destruct (IH2 Hf2) as [F2 E2].
    destruct (add_ok x x' F1 F2) as [F E]; [rewrite E1, E2, Rplus_0_r, Rabs_R0; apply Rlt_le, b2_pos|]. split; [exact F|]. rewrite E, E1, E2, Rplus_0_r. apply RN64_0.
  - inversion Hf as [|? ? (Fa & Fb & E0) Hl]; subst. cbn [fst snd] in *. destruct (IH Hl) as [F1 E1].
    destruct (fma_ok a b x Fa Fb F1) as [F E]; [rewrite E0, E1, Rplus_0_r, Rabs_R0; apply Rlt_le, b2_pos|]. split; [exact F|]. rewrite E, E0, E1, Rplus_0_r. apply RN64_0.
  - apply IH. eapply Permutation_Forall; [apply Permutation_sym|]; eauto.
Qed.
Lemma dot_fin l x : dot_of l x -> is_finite x = true -> forall p, In p l -> is_finite (fst p) = true /\ is_finite (snd p) = true.
Proof.
  intros H F p Hp. destruct (is_finite (fst p)) eqn:E1; [destruct (is_finite (snd p)) eqn:E2; [auto|]|]; exfalso;
    rewrite (dot_nonfin l x H) in F by (exists p; auto); discriminate.
Qed.
Lemma combine_ex {T U} (a : list T) : forall (b : list U) x, length a = length b -> In x a -> exists z, In (x, z) (combine a b).
Proof.
  induction a as [|a0 a IH]; intros [|b0 b] x HL []; try discriminate; [subst; eexists; left; reflexivity|].
  destruct (IH b x ltac:(injection HL; auto) H) as [z Hz]. exists z. right. exact Hz.
Qed.

Lemma mid_length {T U V} (f : T -> U -> V) a : forall b n, length a = n -> length b = n -> length (map2 f a b) = n.
Proof. induction a as [|x a IH]; intros [|z b] n Ha Hb; cbn in Ha, Hb |- *; try congruence. destruct n; [discriminate|]. f_equal. apply IH; congruence. Qed.

(** The square of a large number is no float64 number. *)
Lemma square_huge l x a : dot_of l x -> Forall (fun p => snd p = fst p) l -> In (a, a) l -> b2 512 <= Rabs (B2R a) -> is_finite x = false.
Proof.
  intros H Hsq Ha Hb. destruct (is_finite x) eqn:F; [exfalso|reflexivity]. destruct (square_ge l x H Hsq F) as [_ G]. specialize (G a Ha).
  assert (K : b2 1024 <= RN64 (B2R a * B2R a)).
  { rewrite <- (RN64_fmt (b2 1024)); [|apply generic_format_bpow; vm_compute; discriminate]. apply RN64_le. replace (b2 1024) with (b2 512 * b2 512) by (rewrite <- bpow_plus; reflexivity).
    replace (B2R a * B2R a) with (Rabs (B2R a) * Rabs (B2R a)) by (rewrite <- Rabs_mult; apply Rabs_pos_eq, Rle_0_sqr). pose proof (b2_pos 512). apply Rmult_le_compat; lra. }
  pose proof (abs_B2R_lt_emax 53 1024 x) as L. apply Rabs_lt_inv in L. lra.
Qed.
Lemma max_big : b2 512 <= B2R f_max.
Proof.
  unfold f_max, Bmax_float, B2R, F2R. cbn [Fnum Fexp cond_Zopp]. change (b2 512) with (b2 (-459 + 971)). rewrite bpow_plus. apply Rmult_le_compat; try (apply Rlt_le, b2_pos); [|apply b2_le; lia].
  eapply Rle_trans; [apply (b2_le (-459) 0); lia|]. apply IZR_le. vm_compute. discriminate.
Qed.
Lemma num_huge a : huge a -> b2 512 <= Rabs (B2R (f_nan_to_num a)).
Proof.
  pose proof max_big as M. pose proof (b2_pos 512) as P. intros [[s ->]|H].
  - destruct s; cbn [f_nan_to_num]; [rewrite B2R_Bopp, Rabs_Ropp|]; rewrite Rabs_pos_eq; lra.
  - destruct a as [s|s| |s m e He]; cbn [f_nan_to_num]; try exact H; cbn [B2R] in H; rewrite Rabs_R0 in H; lra.
Qed.

(** No entry of the computed normal is a finite number other than 0. *)
Lemma unit_huge fdot v : blas fdot -> huge_vec v -> Forall (fun x => is_finite x = false \/ B2R x = 0) (f_unit fdot v).
Proof.
  intros dot_is (a & Ha & Hh). pose proof (num_huge a Hh) as Hb. pose proof (b2_pos 512) as P. unfold f_unit. set (w := map f_nan_to_num v).
  assert (Hw : In (f_nan_to_num a) w) by (apply in_map, Ha).
  assert (E2 : forallb (fun y => Beqb y f_zero) w = false).
  { apply Bool.not_true_is_false. intros H. rewrite forallb_forall in H. specialize (H _ Hw).
    rewrite Beqb_correct in H by (try apply nan_to_num_finite; reflexivity). change (B2R f_zero) with 0 in H.
    destruct (Req_bool_spec (B2R (f_nan_to_num a)) 0) as [E|_]; [|discriminate]. rewrite E, Rabs_R0 in Hb. lra. }
  rewrite E2. apply Forall_forall. intros x Hx. apply in_map_iff in Hx as (b & <- & _). apply div_nonfin.
  assert (F : is_finite (fdot w w) = false).
  { apply (square_huge (combine w w) _ (f_nan_to_num a)); [apply dot_is; reflexivity|apply self_sq| |exact Hb]. rewrite combine_same. apply in_map_iff. eauto. }
  destruct (fdot w w) as [|[]| |]; try discriminate F; reflexivity.
Qed.

Section Huge.
Context {C Y P : Type}.
Variables (fdot fmv : list float64 -> list float64 -> float64).
Variable fsum : list float64 -> float64.
Hypothesis dot_is : blas fdot.
Hypothesis mv_is : blas fmv.
Variable pre : C -> list float64.
Variable prec : float64.
Variable srt : (nat -> float64) -> nat -> list nat.
Variable dim : nat.

(** No plane of such a normal has finite rows on both sides. *)
Lemma huge_one_side c x1 x2 x x' : length (pre c) = dim -> huge_vec (pre c) -> length x1 = dim -> length x2 = dim ->
  length x = dim -> Forall (fun a => is_finite a = true) x ->
  let G := geo_f fdot fmv fsum pre prec srt in
  g_back G (g_unit G c) (g_mid G x1 x2) x = true -> g_front G (g_unit G c) (g_mid G x1 x2) x' = true -> False.
Proof.
  intros Lc Hc L1 L2 Lx Fx. cbn [g_back g_front g_unit g_mid geo_f]. intros B F. pose proof (both_sides_finite _ _ _ B F) as Fc.
  set (w := map2 _ x1 x2) in *. set (n := f_unit fdot (pre c)) in *.
  assert (Lw : length w = dim).
  { unfold w. apply mid_length; assumption. }
  assert (Ln : length n = dim) by (unfold n; rewrite unit_length; exact Lc).
  pose proof (dot_is n w ltac:(congruence)) as Dc. pose proof (dot_fin _ _ Dc Fc) as Hf. pose proof (unit_huge fdot (pre c) dot_is Hc) as Hu. fold n in Hu. rewrite Forall_forall in Hu.
  assert (Hz : forall a, In a n -> zero64 a).
  { intros a Ha. destruct (combine_ex n w a ltac:(congruence) Ha) as [z Hin]. destruct (Hf _ Hin) as [Fa _]. cbn [fst] in Fa. split; [exact Fa|]. destruct (Hu a Ha); congruence. }
  assert (Zc : zero64 (fdot n w)).
  { apply (dot_zero _ _ Dc). apply Forall_forall. intros [a b] Hin. destruct (Hf _ Hin) as [Fa Fb]. split; [exact Fa|]. split; [exact Fb|]. cbn [fst snd].
    destruct (Hz a ltac:(eapply in_combine_l; eauto)) as [_ ->]. ring. }
  assert (Zm : zero64 (fmv x n)).
  { apply (dot_zero (combine x n)); [apply mv_is; congruence|]. apply Forall_forall. intros [a b] Hin. cbn [fst snd]. rewrite Forall_forall in Fx.
    destruct (Hz b ltac:(eapply in_combine_r; eauto)) as [Fb ->]. split; [apply Fx; eapply in_combine_l; eauto|]. split; [exact Fb|ring]. }
  rewrite (zero_back _ _ Zc Zm) in B. discriminate.
Qed.

Variable L : lik Y P float64.
Variable post : R -> P -> list Y -> P.
Variable same : ninfo P -> ninfo P -> bool.
Variable cands : list bool -> list C.
Variable d : hset (list float64) Y.
Hypothesis Hn : (0 < hs_n d)%nat.
Theorem h64_huge prn lvl pa t : (forall i, (i < hs_n d)%nat -> length (hs_X d i) = dim /\ Forall (fun a => is_finite a = true) (hs_X d i)) ->
  (forall path c, In c (cands path) -> length (pre c) = dim /\ huge_vec (pre c)) ->
  hyper_fit (geo_f fdot fmv fsum pre prec srt) L post same prn lvl pa cands d = Ok t -> t = Leaf (info t) /\ i_n_data (info t) = hs_n d.
Proof.
  intros Hrows Hc H. apply hyper_fit_inv in H as (t0 & E0 & Hp).
  pose proof (hfit_good (geo_f fdot fmv fsum pre prec srt) L post (hs_X d) (hs_y d) (hs_dim d) cands (hs_n d) (fun _ => False)) as HG.
  eapply HG in E0; clear HG; [| |intros pl k []|exact Hn|intros i Hi; apply in_seq in Hi; lia].
  - destruct E0 as (Hg & _ & Hd). rewrite seq_length in Hd. destruct t0 as [i0|i0 e a b c1 c2]; [|inversion Hg as [|? ? []]]. inversion Hp; subst; auto.
  - intros path c i j k1 k2 Hin Hi Hj Hk1 Hk2. cbv zeta. unfold hgo1, hgo2. cbn [p_normal p_origin]. destruct (Hc path c Hin) as [Lc Hh]. destruct (Hrows k1 Hk1) as [Lx Fx].
    apply (huge_one_side c (hs_X d i) (hs_X d j) (hs_X d k1) (hs_X d k2)); auto; apply Hrows; assumption.
Qed.
End Huge.

Lemma clf64_huge {C} fdot fmv fsum flog fgammaln fbetaln fpow pp delta (pre : C -> list float64) prec srt dim prn lvl pa cands d t : blas fdot -> blas fmv ->
  (0 < hs_n d)%nat -> (forall i, (i < hs_n d)%nat -> length (hs_X d i) = dim /\ Forall (fun a => is_finite a = true) (hs_X d i)) ->
  (forall path c, In c (cands path) -> length (pre c) = dim /\ huge_vec (pre c)) ->
  hcl64_fit fdot fmv fsum flog fgammaln fbetaln fpow pp delta pre prec srt prn lvl pa cands d = Ok t ->
  t = Leaf (info t) /\ i_n_data (info t) = hs_n d.
Proof. intros Hd Hm Hn Hr Hc. unfold hcl64_fit. eapply h64_huge; eauto. Qed.
Lemma reg64_huge {C} fdot fmv fsum flog fgammaln fpow f2pi pp delta (pre : C -> list float64) prec srt dim prn lvl pa cands d t : blas fdot -> blas fmv ->
  (0 < hs_n d)%nat -> (forall i, (i < hs_n d)%nat -> length (hs_X d i) = dim /\ Forall (fun a => is_finite a = true) (hs_X d i)) ->
  (forall path c, In c (cands path) -> length (pre c) = dim /\ huge_vec (pre c)) ->
  hreg64_fit fdot fmv fsum flog fgammaln fpow f2pi pp delta pre prec srt prn lvl pa cands d = Ok t ->
  t = Leaf (info t) /\ i_n_data (info t) = hs_n d.
Proof. intros Hd Hm Hn Hr Hc. unfold hreg64_fit. eapply h64_huge; eauto. Qed.

(** Rows that are far apart, and differences of two rows as candidates. *)
Lemma sub_huge (a b : float64) : is_finite a = true -> is_finite b = true -> b2 512 <= Rabs (B2R a - B2R b) -> huge (f_sub a b).
Proof.
  intros Fa Fb H. generalize (Bminus_correct 53 1024 _ _ mode_NE a b Fa Fb). destruct (Rlt_bool _ _).
  - intros (E & _ & _). right. unfold f_sub. rewrite E. change (round_mode mode_NE) with (Znearest (fun x => negb (Z.even x))).
    apply abs_round_ge_generic; [typeclasses eauto|typeclasses eauto|apply generic_format_bpow; vm_compute; discriminate|exact H].
  - intros [E _]. left. unfold f_sub. destruct (Bminus mode_NE a b) as [s|s| |s m e He]; cbn in E; try discriminate E. eauto.
Qed.
Definition far_rows {Y} (d : hset (list float64) Y) : Prop := forall i j, (i < hs_n d)%nat -> (j < hs_n d)%nat -> map B2R (hs_X d i) <> map B2R (hs_X d j) ->
  exists k, (k < length (hs_X d i))%nat /\ b2 512 <= Rabs (B2R (nth k (hs_X d i) f_zero) - B2R (nth k (hs_X d j) f_zero)).
Lemma map2_sub_nth a : forall b k, length a = length b -> (k < length a)%nat -> In (f_sub (nth k a f_zero) (nth k b f_zero)) (map2 f_sub a b).
Proof. induction a as [|x a IH]; intros [|z b] k HL Hk; cbn in HL, Hk; try discriminate; [lia|]. destruct k; [left; reflexivity|right]. apply (IH b k); lia. Qed.
Lemma difference_huge {Y} (d : hset (list float64) Y) dim v : (forall i, (i < hs_n d)%nat -> length (hs_X d i) = dim /\ Forall (fun a => is_finite a = true) (hs_X d i)) ->
  far_rows d -> row_difference d v -> length v = dim /\ huge_vec v.
Proof.
  intros Hr Hf (i & j & Hi & Hj & Hv & Hne). destruct (Hr i Hi) as [Li Fi]. destruct (Hr j Hj) as [Lj Fj]. rewrite Forall_forall in Fi, Fj.
  destruct (Hf j i Hj Hi (not_eq_sym Hne)) as (k & Hk & Hb). pose proof (map2_sub_nth (hs_X d j) (hs_X d i) k ltac:(congruence) Hk) as Hin.
  pose proof (sub_huge _ _ (Fj _ (nth_In _ f_zero Hk)) (Fi _ (nth_In _ f_zero ltac:(rewrite Li, <- Lj; exact Hk))) Hb) as Hh.
  pose proof (mid_length f_sub (hs_X d j) (hs_X d i) dim Lj Li) as Ld. destruct Hv as [-> | ->].
  - split; [exact Ld|]. eexists. split; [exact Hin|exact Hh].
  - split; [rewrite map_length; exact Ld|]. eexists. split; [apply in_map, Hin|]. destruct Hh as [[s ->]|Hh]; [left; cbn; eauto|right; rewrite B2R_Bopp, Rabs_Ropp; exact Hh].
Qed.

Lemma clf64_far {C} fdot fmv fsum flog fgammaln fbetaln fpow pp delta (pre : C -> list float64) prec srt dim prn lvl pa cands d t : blas fdot -> blas fmv ->
  (0 < hs_n d)%nat -> (forall i, (i < hs_n d)%nat -> length (hs_X d i) = dim /\ Forall (fun a => is_finite a = true) (hs_X d i)) ->
  far_rows d -> (forall path c, In c (cands path) -> row_difference d (pre c)) ->
  hcl64_fit fdot fmv fsum flog fgammaln fbetaln fpow pp delta pre prec srt prn lvl pa cands d = Ok t ->
  t = Leaf (info t) /\ i_n_data (info t) = hs_n d.
Proof. intros Hd Hm Hn Hr Hf Hc. eapply clf64_huge; eauto. intros path c Hin. eapply difference_huge; eauto. Qed.
Lemma reg64_far {C} fdot fmv fsum flog fgammaln fpow f2pi pp delta (pre : C -> list float64) prec srt dim prn lvl pa cands d t : blas fdot -> blas fmv ->
  (0 < hs_n d)%nat -> (forall i, (i < hs_n d)%nat -> length (hs_X d i) = dim /\ Forall (fun a => is_finite a = true) (hs_X d i)) ->
  far_rows d -> (forall path c, In c (cands path) -> row_difference d (pre c)) ->
  hreg64_fit fdot fmv fsum flog fgammaln fpow f2pi pp delta pre prec srt prn lvl pa cands d = Ok t ->
  t = Leaf (info t) /\ i_n_data (info t) = hs_n d.
Proof. intros Hd Hm Hn Hr Hf Hc. eapply reg64_huge; eauto. intros path c Hin. eapply difference_huge; eauto. Qed.

(** ** Cases *)
(** Two rows that exact arithmetic separates, and as candidates their difference 2^600 and an infinity. *)
Definition f_600 : float64 := @B754_finite 53 1024 false 4503599627370496 548 eq_refl.
Definition huge_set : hset (list float64) float64 :=
  mkHSet 2 1 (fun i => match i with O => [f_zero] | _ => [f_600] end) (fun i => match i with O => f_zero | _ => f_one end).
Definition huge_cands (path : list bool) : list (list float64) := [[f_600]; [B754_infinity true]].
Lemma val_600 : B2R f_600 = b2 600.
Proof. unfold f_600, B2R, F2R. cbn [Fnum Fexp cond_Zopp]. change (b2 600) with (b2 (52 + 548)). rewrite bpow_plus. f_equal. Qed.
Lemma huge_case : (0 < hs_n huge_set)%nat /\
  (forall i, (i < hs_n huge_set)%nat -> length (hs_X huge_set i) = 1%nat /\ Forall (fun a => is_finite a = true) (hs_X huge_set i)) /\
  (forall path c, In c (huge_cands path) -> length c = 1%nat /\ huge_vec c) /\ huge_cands [] = [map2 f_sub (hs_X huge_set 1) (hs_X huge_set 0); [B754_infinity true]].
Proof.
  split; [cbn [hs_n huge_set]; lia|]. split.
  - intros i Hi. cbn [hs_n huge_set] in Hi. destruct i as [|[|i]]; [| |lia]; cbn [hs_X huge_set]; (split; [reflexivity|]; repeat constructor).
  - split; [|vm_compute; reflexivity]. intros path c [<-|[<-|[]]]; (split; [reflexivity|]).
    + exists f_600. split; [left; reflexivity|]. right. rewrite val_600, Rabs_pos_eq by (apply Rlt_le, b2_pos). apply b2_le. lia.
    + exists (B754_infinity true). split; [left; reflexivity|]. left. eauto.
Qed.
Lemma far_case : far_rows huge_set /\ row_difference huge_set [f_600].
Proof.
  split.
  - intros i j Hi Hj Hne. cbn [hs_n huge_set] in Hi, Hj. exists 0%nat. destruct i as [|[|i]], j as [|[|j]]; try lia; try (exfalso; apply Hne; reflexivity);
      cbn [hs_X huge_set length nth]; rewrite val_600; change (B2R f_zero) with 0; (split; [lia|]); pose proof (b2_pos 600).
    + replace (0 - b2 600) with (- b2 600) by ring. rewrite Rabs_Ropp, Rabs_pos_eq by lra. apply b2_le. lia.
    + rewrite Rminus_0_r, Rabs_pos_eq by lra. apply b2_le. lia.
  - exists 0%nat, 1%nat. split; [cbn [hs_n huge_set]; lia|]. split; [cbn [hs_n huge_set]; lia|]. split; [left; vm_compute; reflexivity|].
    cbn [hs_X huge_set map]. rewrite val_600. change (B2R f_zero) with 0. intros K. injection K as K. pose proof (b2_pos 600). lra.
Qed.
