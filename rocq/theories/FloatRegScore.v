(** * FloatRegScore: posteriors and scores of regression in float64 against the exact ones. *)
From Coq Require Import Reals Lra Permutation Psatz Sorted.
From Flocq Require Import Core BinarySingleNaN.
From Verif Require Import Prelude Lists Tree Perp RealOps Gamma Reg OptSpec ClfSpec ClfProofs RegSpec RegProofs FloatFeat FloatProofs FloatReg FloatSum FloatNG FloatNGFit FloatClfSum FloatClfErr FloatOracle Stable FloatRegErr.
Local Open Scope R_scope.

(** A target of size at most [M]. *)
Definition sized (M : R) (a : float64) : Prop := is_finite a = true /\ Rabs (B2R a) <= M.

(** ** Sums *)
Section Sums.
Variables (N : nat) (M : R).
Hypothesis HN20 : INR N <= b2 20.
Hypothesis HM : 1 <= M <= b2 300.
Definition reg_w (N : nat) : R := INR N * INR N * u53.
Notation w := (reg_w N).
Lemma M_bound (c : Z) : (900 <= c)%Z -> INR N * (M * M) <= b2 c /\ INR N * M <= b2 c.
Proof.
  intros Hc. pose proof (pos_INR N). assert (M * M <= b2 (300 + 300)) by (apply prod_le; lra). assert (0 <= M * M) by nra.
  split.
  - eapply Rle_trans; [apply (prod_le (INR N) (M * M) 20 (300 + 300)); lra|apply b2_le; lia].
  - eapply Rle_trans; [apply (prod_le (INR N) M 20 300); lra|apply b2_le; lia].
Qed.
Lemma sum_ap ys a : sum_of ys a -> Forall (sized M) ys -> (1 <= length ys <= N)%nat -> ap w 2 (INR (length ys) * M) M a (vsum (map B2R ys)).
Proof.
  intros Hs Hy Hl. destruct (um_w N ltac:(lia) HN20 (length ys) Hl) as [[P1 P2] Hum]. fold (reg_w N) in Hum. pose proof upos as Hu.
  assert (HF : Forall2 (within 0 M) ys (map B2R ys)).
  { clear -Hy. induction Hy as [|x l [H1 H2] _ IH]; cbn [map]; constructor; auto. split; [exact H1|]. split; [exact H2|]. rewrite Rminus_eq_0, Rabs_R0. lra. }
  assert (HB : Rabs (vsum (map B2R ys)) <= INR (length ys) * M).
  { clear -Hy HM. induction Hy as [|x l [H1 H2] _ IH]; [unfold vsum; simpl; rewrite Rabs_R0; lra|]. cbn [map length]. rewrite vsum_cons, S_INR.
    eapply Rle_trans; [apply Rabs_triang|]. lra. }
  destruct (sum_within 0 M ys a Hs _ HF P2) as (F & _ & E); [eapply Rle_trans; [apply HM|apply b2_le; lia]|].
  split; [exact F|]. split; [exact HB|].
  assert (Hmm : INR (length ys) * INR (length ys) * u53 <= w).
  { unfold reg_w. apply Rmult_le_compat_r; [lra|]. assert (INR (length ys) <= INR N) by (apply le_INR; lia). apply Rmult_le_compat; lra. }
  split.
  - eapply Rle_trans; [exact E|]. assert (INR (length ys) * INR (length ys) * u53 * M <= w * M) by (apply Rmult_le_compat_r; lra). lra.
  - split; [rewrite <- Rmult_assoc; apply Rmult_le_compat_r; lra|]. split; [|lra]. split; [apply tiny; lra|nra].
Qed.
Lemma sq_ok x : sized M x -> within (2 * u53 * (M * M)) (2 * (M * M)) (f_sq x) (B2R x ^ 2).
Proof.
  intros [F H]. assert (Hx : Rabs (B2R x * B2R x) <= M * M) by (rewrite Rabs_mult; apply Rmult_le_compat; auto using Rabs_pos).
  assert (HM2 : 1 <= M * M <= b2 600) by (split; [nra|apply (prod_le M M 300 300); lra]).
  destruct (mul_ok x x F F) as [F2 V2]; [eapply Rle_trans; [exact Hx|]; eapply Rle_trans; [apply HM2|apply b2_le; lia]|].
  pose proof (RN64_err (B2R x * B2R x)) as E. pose proof upos as Hu.
  assert (E2 : Rabs (RN64 (B2R x * B2R x) - B2R x * B2R x) <= 2 * u53 * (M * M)).
  { eapply Rle_trans; [exact E|]. assert (u53 * Rabs (B2R x * B2R x) <= u53 * (M * M)) by (apply Rmult_le_compat_l; lra).
    assert (b2 (-1075) <= u53) by (unfold u53; apply b2_le; lia). assert (u53 * 1 <= u53 * (M * M)) by (apply Rmult_le_compat_l; lra). lra. }
  unfold f_sq. replace (B2R x ^ 2) with (B2R x * B2R x) by ring. split; [exact F2|]. rewrite V2. split; [|exact E2].
  assert (2 * u53 * (M * M) <= M * M) by (rewrite u53_val; nra). apply abs_bnd in E2. apply abs_bnd in Hx. apply Rabs_le. lra.
Qed.
Lemma sq_ap ys a : sum_of (map f_sq ys) a -> Forall (sized M) ys -> (1 <= length ys <= N)%nat -> ap w 6 (INR (length ys) * (M * M)) (M * M) a (sumsq (map B2R ys)).
Proof.
  intros Hs Hy Hl. destruct (um_w N ltac:(lia) HN20 (length ys) Hl) as [[P1 P2] Hum]. fold (reg_w N) in Hum. pose proof upos as Hu.
  assert (HM2 : 1 <= M * M <= b2 600) by (split; [nra|apply (prod_le M M 300 300); lra]).
  assert (HF : Forall2 (within (2 * u53 * (M * M)) (2 * (M * M))) (map f_sq ys) (map (fun y => y ^ 2) (map B2R ys))).
  { clear -Hy HM. induction Hy as [|x l Hx _ IH]; cbn [map]; constructor; auto. apply sq_ok. exact Hx. }
  assert (HB : Rabs (sumsq (map B2R ys)) <= INR (length ys) * (M * M)).
  { clear -Hy HM. unfold sumsq. induction Hy as [|x l [H1 H2] _ IH]; [unfold vsum; simpl; rewrite Rabs_R0; lra|]. cbn [map length]. rewrite vsum_cons, S_INR.
    eapply Rle_trans; [apply Rabs_triang|]. assert (Rabs (B2R x ^ 2) <= M * M); [|lra]. replace (B2R x ^ 2) with (B2R x * B2R x) by ring.
    rewrite Rabs_mult. apply Rmult_le_compat; auto using Rabs_pos. }
  destruct (sum_within _ _ _ a Hs _ HF) as (F & _ & E); [rewrite map_length; exact P2| |].
  { apply Rle_trans with (b2 (1 + 600)); [rewrite bpow_plus; change (b2 1) with 2; lra|apply b2_le; lia]. }
  rewrite map_length in E.
  split; [exact F|]. split; [exact HB|].
  assert (Hmm : INR (length ys) * INR (length ys) * u53 <= w).
  { unfold reg_w. apply Rmult_le_compat_r; [lra|]. assert (INR (length ys) <= INR N) by (apply le_INR; lia). apply Rmult_le_compat; lra. }
  split.
  - eapply Rle_trans; [exact E|]. assert (INR (length ys) * INR (length ys) * u53 * (M * M) <= w * (M * M)) by (apply Rmult_le_compat_r; lra).
    assert (u53 * INR (length ys) * (M * M) <= w * (M * M)) by (apply Rmult_le_compat_r; lra). lra.
  - split; [rewrite <- Rmult_assoc; apply Rmult_le_compat_r; lra|]. split; [|lra]. split; [apply tiny; lra|nra].
Qed.
End Sums.

(** ** Posterior of given sums *)
Definition reg_rb (N : nat) (M : R) (p : fng) : R := 52 * reg_w N * (1 + (1 + 2 * B2R (fn_kappa p)) * (M * M) / B2R (fn_beta p)).

(** [q] is the computed posterior of the exact one [x]. *)
Definition post_close (N : nat) (M : R) (p q : fng) (x : ng) : Prop :=
  is_finite (fn_mu q) = true /\ Rabs (B2R (fn_mu q) - ng_mu x) <= 25 * reg_w N * M /\
  is_finite (fn_kappa q) = true /\ Rabs (B2R (fn_kappa q) - ng_kappa x) <= u53 * ng_kappa x /\
  is_finite (fn_alpha q) = true /\ Rabs (B2R (fn_alpha q) - ng_alpha x) <= u53 * ng_alpha x /\
  is_finite (fn_beta q) = true /\ Rabs (B2R (fn_beta q) - ng_beta x) <= reg_rb N M p * B2R (fn_beta p).

Section Posts.
Variables (N : nat) (M : R) (p : fng).
Hypothesis HN20 : INR N <= b2 20.
Hypothesis HM : 1 <= M <= b2 300.
Hypothesis Hp : sized_prior M p.
Notation w := (reg_w N).

Lemma sized_pok : reg_pok (ng_val p).
Proof. destruct Hp as (_ & _ & _ & _ & _ & Hk & Ha & Hb). pose proof (b2_pos (-300)). unfold reg_pok, ng_val. cbn [ng_kappa ng_alpha ng_beta]. lra. Qed.

Lemma sums_close (ys : list float64) s q : ys <> [] -> (length ys <= N)%nat ->
  ap w 8 (INR (length ys) * M) M s (vsum (map B2R ys)) -> ap w 16 (INR (length ys) * (M * M)) (M * M) q (sumsq (map B2R ys)) ->
  let post := freg_post_internal p (length ys) s q f_one in let x := ng_update 1 (ng_val p) (map B2R ys) in
  post_close N M p post x /\ B2R (fn_beta p) <= ng_beta x <= b2 1000 /\ B2R (fn_alpha post) = RN64 (ng_alpha x).
Proof.
  intros Hne Hl Hs Hq. cbv zeta.
  assert (Hm : (1 <= length ys <= N)%nat) by (destruct ys; [congruence|simpl in *; lia]).
  assert (Hne' : map B2R ys <> []) by (destruct ys; simpl; congruence).
  rewrite <- (reg_post_internal_update (ng_val p) (map B2R ys) Hne' sized_pok), map_length.
  pose proof (ssd_nonneg (map B2R ys)) as Hss. rewrite (ssd_eq _ Hne'), map_length in Hss.
  destruct (mu_close N M p ltac:(lia) HN20 HM Hp (length ys) s q _ (sumsq (map B2R ys)) Hm Hs) as (M1 & M2 & M3).
  destruct (beta_close N M p ltac:(lia) HN20 HM Hp (length ys) s q _ _ Hm Hs Hq Hss) as (B1 & B3 & B4).
  destruct (kappa_alpha_close N M p ltac:(lia) HN20 Hp (length ys) s q (vsum (map B2R ys)) (sumsq (map B2R ys)) Hm) as (K1 & K2 & K3 & K4 & K5).
  split; [|split; [exact B3|exact K5]].
  repeat (split; [assumption|]). eapply Rle_trans; [exact B4|]. destruct Hp as (_ & _ & _ & _ & _ & Hk & Ha & Hb). pose proof (b2_pos (-300)).
  right. unfold reg_rb, reg_w. field. lra.
Qed.

Lemma ap_up c c' B E a x : 1 <= INR N -> ap w c B E a x -> c <= c' <= 80 -> ap w c' B E a x.
Proof.
  intros H1 Ha Hc. assert (HN : (1 <= N)%nat) by (apply INR_le; simpl; lra). pose proof (w_ok N HN HN20) as Hw. change (u53 <= w <= / 8192) in Hw.
  apply (ap_weaken w Hw _ _ _ _ _ _ _ _ Ha); auto; try lra; destruct Ha as (_ & X & _ & U & E0 & _); auto; lra.
Qed.

(** Sums in any order. *)
Lemma whole_close fsum ys : (forall l, sum_of l (fsum l)) -> ys <> [] -> (length ys <= N)%nat -> Forall (sized M) ys ->
  ap w 8 (INR (length ys) * M) M (fsum ys) (vsum (map B2R ys)) /\ ap w 16 (INR (length ys) * (M * M)) (M * M) (fsum (map f_sq ys)) (sumsq (map B2R ys)).
Proof.
  intros Hsum Hne Hl Hy. assert (Hm : (1 <= length ys <= N)%nat) by (destruct ys; [congruence|simpl in *; lia]).
  assert (H1 : 1 <= INR N) by (change 1 with (INR 1); apply le_INR; lia).
  split.
  - apply (ap_up 2); [exact H1|apply sum_ap; auto|lra].
  - apply (ap_up 6); [exact H1|apply sq_ap; auto|lra].
Qed.
(** Sums of the first rows, and of the others by difference. *)
Lemma split_close fsum ys k : (forall l, sum_of l (fsum l)) -> (1 <= k < length ys)%nat -> (length ys <= N)%nat -> Forall (sized M) ys ->
  let s1 := nth (k - 1) (f_cumsum ys) f_zero in let q1 := nth (k - 1) (f_cumsum (map f_sq (removelast ys))) f_zero in
  (ap w 8 (INR k * M) M s1 (vsum (map B2R (firstn k ys))) /\ ap w 16 (INR k * (M * M)) (M * M) q1 (sumsq (map B2R (firstn k ys)))) /\
  (ap w 8 (INR (length ys - k) * M) M (f_sub (fsum ys) s1) (vsum (map B2R (skipn k ys))) /\
   ap w 16 (INR (length ys - k) * (M * M)) (M * M) (f_sub (fsum (map f_sq ys)) q1) (sumsq (map B2R (skipn k ys)))).
Proof.
  intros Hsum Hk Hl Hy s1 q1.
  assert (HN : (1 <= N)%nat) by lia. assert (H1 : 1 <= INR N) by (change 1 with (INR 1); apply le_INR; lia).
  pose proof (w_ok N HN HN20) as Hw. change (u53 <= w <= / 8192) in Hw. pose proof upos as Hu.
  assert (E1 : s1 = f_sum (firstn k ys)) by (unfold s1; apply cumsum_sum; lia).
  assert (E2 : q1 = f_sum (map f_sq (firstn k ys))).
  { unfold q1. rewrite cumsum_sum by (rewrite map_length, removelast_length; lia). rewrite firstn_map, firstn_removelast by lia. reflexivity. }
  assert (Hf : Forall (sized M) (firstn k ys)) by (apply Forall_firstn; exact Hy).
  assert (Lf : length (firstn k ys) = k) by (rewrite firstn_length; lia).
  assert (A1 : ap w 2 (INR k * M) M s1 (vsum (map B2R (firstn k ys)))).
  { rewrite E1. rewrite <- Lf at 1. apply sum_ap; auto; [apply f_sum_sum|lia]. }
  assert (A2 : ap w 6 (INR k * (M * M)) (M * M) q1 (sumsq (map B2R (firstn k ys)))).
  { rewrite E2. rewrite <- Lf at 1. apply sq_ap; auto; [apply f_sum_sum|lia]. }
  assert (A3 : ap w 2 (INR (length ys) * M) M (fsum ys) (vsum (map B2R ys))) by (apply sum_ap; auto; lia).
  assert (A4 : ap w 6 (INR (length ys) * (M * M)) (M * M) (fsum (map f_sq ys)) (sumsq (map B2R ys))) by (apply sq_ap; auto; lia).
  split; [split; [apply (ap_up 2)|apply (ap_up 6)]; auto; lra|].
  assert (Hs : Forall (sized M) (skipn k ys)) by (apply Forall_skipn; exact Hy).
  assert (Ls : length (skipn k ys) = (length ys - k)%nat) by apply skipn_length.
  assert (A5 : ap w 2 (INR (length ys - k) * M) M (f_sum (skipn k ys)) (vsum (map B2R (skipn k ys)))).
  { rewrite <- Ls at 1. apply sum_ap; auto; [apply f_sum_sum|lia]. }
  assert (A6 : ap w 6 (INR (length ys - k) * (M * M)) (M * M) (f_sum (map f_sq (skipn k ys))) (sumsq (map B2R (skipn k ys)))).
  { rewrite <- Ls at 1. apply sq_ap; auto; [apply f_sum_sum|lia]. }
  destruct (M_bound N M HN20 HM 900 ltac:(lia)) as [MB1 MB2].
  assert (HMM : 1 <= M * M) by nra. assert (Hkn : INR k <= INR N) by (apply le_INR; lia). assert (Hnn : INR (length ys) <= INR N) by (apply le_INR; lia).
  assert (G1 : INR k * M <= INR N * M) by (apply Rmult_le_compat_r; lra). assert (G2 : INR (length ys) * M <= INR N * M) by (apply Rmult_le_compat_r; lra).
  assert (G3 : INR k * (M * M) <= INR N * (M * M)) by (apply Rmult_le_compat_r; lra). assert (G4 : INR (length ys) * (M * M) <= INR N * (M * M)) by (apply Rmult_le_compat_r; lra).
  assert (Hb9 : b2 (1 + 900) <= b2 1000) by (apply b2_le; lia).
  assert (V1 : vsum (map B2R (skipn k ys)) = vsum (map B2R ys) - vsum (map B2R (firstn k ys))) by (rewrite <- firstn_map, <- skipn_map, vsum_skipn; reflexivity).
  assert (V2 : sumsq (map B2R (skipn k ys)) = sumsq (map B2R ys) - sumsq (map B2R (firstn k ys))) by (rewrite <- firstn_map, <- skipn_map, sumsq_skipn; reflexivity).
  rewrite V1 in A5 |- *. rewrite V2 in A6 |- *.
  split.
  - assert (A7 := sub_ap w Hw 2 _ _ _ _ _ _ _ _ A3 A1 ltac:(eapply Rle_trans; [apply sum_le_b2 with (i := 900%Z); lra|exact Hb9]) ltac:(lra)).
    apply (rescale N HN HN20 _ _ _ 8 _ _ _ _ A7); try lra; apply A5.
  - assert (A7 := sub_ap w Hw 6 _ _ _ _ _ _ _ _ A4 A2 ltac:(eapply Rle_trans; [apply sum_le_b2 with (i := 900%Z); lra|exact Hb9]) ltac:(lra)).
    apply (rescale N HN HN20 _ _ _ 16 _ _ _ _ A7); try lra; apply A6.
Qed.
End Posts.

(** ** The evidence *)
Lemma within_mul e1 e2 B1 B2 a b x y : within e1 B1 a x -> within e2 B2 b y -> 1 <= B1 * B2 <= b2 1000 ->
  within (e1 * (B2 + e2) + B1 * e2 + u53 * (B1 * B2) + u53) (2 * (B1 * B2)) (f_mul a b) (x * y).
Proof.
  intros Ha Hb HB. destruct (within_pos _ _ _ _ Ha) as [P1 P2]. destruct (within_pos _ _ _ _ Hb) as [P3 P4].
  destruct Ha as (Fa & Ba & Ea), Hb as (Fb & Bb & Eb). pose proof upos as Hu.
  assert (Hxy : Rabs (B2R a * B2R b) <= B1 * B2) by (rewrite Rabs_mult; apply Rmult_le_compat; auto using Rabs_pos).
  destruct (mul_ok a b Fa Fb) as [F V]; [eapply Rle_trans; [exact Hxy|]; eapply Rle_trans; [apply HB|apply b2_le; lia]|].
  assert (Hy : Rabs y <= B2 + e2) by (apply abs_bnd in Bb; apply abs_bnd in Eb; apply Rabs_le; lra).
  pose proof (RN64_err (B2R a * B2R b)) as E. assert (E1 : b2 (-1075) <= u53) by (unfold u53; apply b2_le; lia).
  assert (E2 : u53 * Rabs (B2R a * B2R b) <= u53 * (B1 * B2)) by (apply Rmult_le_compat_l; lra).
  assert (D1 : Rabs (B2R a * (B2R b - y)) <= B1 * e2) by (rewrite Rabs_mult; apply Rmult_le_compat; auto using Rabs_pos).
  assert (D2 : Rabs ((B2R a - x) * y) <= e1 * (B2 + e2)) by (rewrite Rabs_mult; apply Rmult_le_compat; auto using Rabs_pos).
  split; [exact F|]. rewrite V. split.
  - assert (u53 * (B1 * B2) + u53 <= B1 * B2) by (rewrite u53_val; nra). assert (E3 : Rabs (RN64 (B2R a * B2R b) - B2R a * B2R b) <= B1 * B2) by lra.
    apply abs_bnd in E3. apply abs_bnd in Hxy. apply Rabs_le. lra.
  - replace (RN64 (B2R a * B2R b) - x * y) with ((RN64 (B2R a * B2R b) - B2R a * B2R b) + (B2R a * (B2R b - y) + (B2R a - x) * y)) by ring.
    eapply Rle_trans; [apply Rabs_triang|]. assert (Rabs (B2R a * (B2R b - y) + (B2R a - x) * y) <= B1 * e2 + e1 * (B2 + e2)) by (eapply Rle_trans; [apply Rabs_triang|]; lra). lra.
Qed.
Lemma within_exact B a x : is_finite a = true -> B2R a = x -> Rabs x <= B -> within 0 B a x.
Proof. intros H1 H2 H3. split; [exact H1|]. rewrite H2, Rminus_eq_0, Rabs_R0. split; [exact H3|lra]. Qed.

Lemma ln_le x y : 0 < x -> x <= y -> ln x <= ln y.
Proof. intros H [H1| ->]; [left; apply ln_increasing; auto|lra]. Qed.

(** [gammaln] at the numbers [alpha + m / 2]. *)
Definition gammaln_halves (fgammaln : float64 -> float64) (alpha : R) (N : nat) (eg G : R) : Prop :=
  forall (m : nat) (a : float64), (m <= N)%nat -> is_finite a = true -> B2R a = RN64 (alpha + INR m / 2) -> within eg G (fgammaln a) (gammaln (alpha + INR m / 2)).
Definition reg_A (N : nat) (p : fng) : R := B2R (fn_alpha p) + INR N / 2 + 1.
Definition reg_side_err (N : nat) (M eps eg G : R) (p : fng) : R :=
  2 * eg + 4 * reg_A N p * eps + 2 * reg_A N p * reg_rb N M p + 64 * u53 * (G + 1000 * reg_A N p).

Section Score.
Variables (flog fgammaln : float64 -> float64) (f2pi : float64).
Variables (N : nat) (M eps eg G : R) (p : fng).
Hypothesis HN20 : INR N <= b2 20.
Hypothesis HM : 1 <= M <= b2 300.
Hypothesis Hp : sized_prior M p.
Hypothesis Hlog : log_accurate flog eps.
Hypothesis Heps : eps <= 1.
Hypothesis Hgam : gammaln_halves fgammaln (B2R (fn_alpha p)) N eg G.
Hypothesis HG : G <= b2 900.
Hypothesis H2pi : is_finite f2pi = true /\ Rabs (B2R f2pi - 2 * PI) <= 8 * u53.
Hypothesis Hrb : reg_rb N M p <= / 2.
Notation rb := (reg_rb N M p).
Notation A := (reg_A N p).

Lemma log_close x x' d : is_finite x' = true -> b2 (-1000) <= x <= b2 1000 -> Rabs (B2R x' - x) <= d * x -> d <= / 2 -> within (eps + 2 * d) 1002 (flog x') (ln x).
Proof.
  intros F [H1 H2] Hd Hd2. pose proof (b2_pos (-1000)) as H0. assert (Hx : 0 < x) by lra. destruct (ln_near x (B2R x') d Hx Hd Hd2) as [X1 X2].
  destruct (Hlog x' F X1) as [L1 L2].
  assert (L3 : Rabs (ln x) <= 1000).
  { pose proof (ln_b2 1000) as Q1. pose proof (ln_b2 (-1000)) as Q2. change (IZR (Z.abs 1000)) with 1000 in Q1. change (IZR (Z.abs (-1000))) with 1000 in Q2.
    apply abs_bnd in Q1. apply abs_bnd in Q2. assert (ln (b2 (-1000)) <= ln x) by (apply ln_le; lra). assert (ln x <= ln (b2 1000)) by (apply ln_le; lra). apply Rabs_le. lra. }
  apply abs_bnd in L2. apply abs_bnd in L3. apply abs_bnd in X2. split; [exact L1|]. split; apply Rabs_le; lra.
Qed.

Lemma pi_range : 6 <= 2 * PI <= 8.
Proof. pose proof PI_4. pose proof PI2_3_2. lra. Qed.

Lemma side_score (ys : list float64) s q : ys <> [] -> (length ys <= N)%nat ->
  ap (reg_w N) 8 (INR (length ys) * M) M s (vsum (map B2R ys)) -> ap (reg_w N) 16 (INR (length ys) * (M * M)) (M * M) q (sumsq (map B2R ys)) ->
  within (reg_side_err N M eps eg G p) (64 * (G + 1000 * A)) (freg_side flog fgammaln f2pi p (length ys) s q) (ng_logev (ng_val p) (map B2R ys)).
Proof.
  intros Hne Hl Hs Hq.
  assert (Hm : (1 <= length ys <= N)%nat) by (destruct ys; [congruence|simpl in *; lia]).
  assert (Hne' : map B2R ys <> []) by (destruct ys; simpl; congruence).
  destruct (sums_close N M p HN20 HM Hp ys s q Hne Hl Hs Hq) as ((M1 & M2 & K1 & K2 & A1 & A2 & B1 & B3) & B4 & A3).
  pose proof (sized_pok M p Hp) as Hpok. rewrite <- (reg_log_p_data_logev (ng_val p) (map B2R ys) Hne' Hpok). cbv zeta.
  rewrite (reg_post_internal_update (ng_val p) (map B2R ys) Hne' Hpok), map_length.
  unfold freg_side. cbv zeta. set (post := freg_post_internal p (length ys) s q f_one) in *. set (x := ng_update 1 (ng_val p) (map B2R ys)) in *.
  assert (Hk : ng_kappa x = B2R (fn_kappa p) + INR (length ys)) by (unfold x, ng_update, ng_val; cbn [ng_kappa]; rewrite map_length; ring).
  assert (Ha : ng_alpha x = B2R (fn_alpha p) + INR (length ys) / 2) by (unfold x, ng_update, ng_val; cbn [ng_alpha]; rewrite map_length; field).
  destruct Hp as (_ & Fk & Fa & Fb & _ & Sk & Sa & Sb). pose proof (b2_pos (-300)) as P3. pose proof upos as Hu. assert (Hu53 : u53 <= / 9007199254740992) by (rewrite u53_val; lra).
  destruct (um_w N ltac:(lia) HN20 (length ys) Hm) as [[Q1 Q2] _]. set (m := length ys) in *.
  assert (HmN : INR m <= INR N) by (apply le_INR; lia).
  assert (Heps0 : 0 <= eps). { destruct one_ok as [F1 V1]. destruct (Hlog f_one F1 ltac:(rewrite V1; lra)) as [_ E]. pose proof (Rabs_pos (B2R (flog f_one) - ln (B2R f_one))). lra. }
  assert (Hrb0 : 0 <= rb).
  { pose proof (Rabs_pos (B2R (fn_beta post) - ng_beta x)). apply Rmult_le_reg_r with (B2R (fn_beta p)); lra. }
  assert (HA : 1 <= A <= b2 31).
  { unfold reg_A. split; [lra|]. assert (b2 20 <= b2 29) by (apply b2_le; lia). change (b2 31) with (2 * (2 * b2 29)). change (b2 30) with (2 * b2 29) in Sa. change (b2 29) with 536870912 in *. lra. }
  (* gammaln *)
  assert (Wg1 : within eg G (fgammaln (fn_alpha post)) (gammaln (ng_alpha x))).
  { rewrite Ha. apply Hgam; [lia|exact A1|rewrite A3, Ha; reflexivity]. }
  assert (Wg0 : within eg G (fgammaln (fn_alpha p)) (gammaln (ng_alpha (ng_val p)))).
  { unfold ng_val. cbn [ng_alpha]. assert (E0 : B2R (fn_alpha p) + INR 0 / 2 = B2R (fn_alpha p)) by (simpl; field).
    pose proof (Hgam 0%nat (fn_alpha p) ltac:(lia) Fa ltac:(rewrite E0; symmetry; apply RN64_fmt, fmt_B2R)) as Hg. rewrite E0 in Hg. exact Hg. }
  destruct (within_pos _ _ _ _ Wg0) as [Pg1 Pg2].
  (* logarithms *)
  assert (Wb0 : within eps 1002 (flog (fn_beta p)) (ln (ng_beta (ng_val p)))).
  { replace eps with (eps + 2 * 0) by ring. apply log_close; [exact Fb| | |lra]; unfold ng_val; cbn [ng_beta].
    - split; [eapply Rle_trans; [apply (b2_le (-1000) (-300)); lia|lra]|eapply Rle_trans; [apply Sb|apply b2_le; lia]].
    - rewrite Rminus_eq_0, Rabs_R0. lra. }
  assert (Wb1 : within (eps + 2 * rb) 1002 (flog (fn_beta post)) (ln (ng_beta x))).
  { apply log_close; [exact B1| | |exact Hrb].
    - split; [eapply Rle_trans; [apply (b2_le (-1000) (-300)); lia|lra]|lra].
    - eapply Rle_trans; [exact B3|]. apply Rmult_le_compat_l; lra. }
  assert (Wk : within (eps + 8 * u53) 1002 (flog (f_div (fn_kappa p) (fn_kappa post))) (ln (ng_kappa (ng_val p) / ng_kappa x))).
  { assert (Hkx : 0 < ng_kappa x) by (rewrite Hk; lra).
    assert (Hr0 : b2 (-601) <= B2R (fn_kappa p) / ng_kappa x <= 1).
    { rewrite Hk. split.
      - apply Rmult_le_reg_r with (B2R (fn_kappa p) + INR m); [lra|]. unfold Rdiv. rewrite (Rmult_assoc (B2R (fn_kappa p))), Rinv_l, Rmult_1_r by lra.
        apply Rle_trans with (b2 (-601) * b2 301); [|rewrite <- bpow_plus; apply Sk].
        apply Rmult_le_compat_l; [left; apply b2_pos|]. pose proof (b2_le 20 300 ltac:(lia)). apply (sum_le_b2 _ _ 300); lra.
      - apply Rmult_le_reg_r with (B2R (fn_kappa p) + INR m); [lra|]. unfold Rdiv. rewrite (Rmult_assoc (B2R (fn_kappa p))), Rinv_l, Rmult_1_r by lra. lra. }
    set (r0 := B2R (fn_kappa p) / ng_kappa x) in *.
    apply abs_bnd in K2. assert (Hkp : 0 < B2R (fn_kappa post)) by nra.
    pose proof (b2_pos (-601)) as P6.
    assert (Hr1 : Rabs (B2R (fn_kappa p) / B2R (fn_kappa post) - r0) <= 2 * u53 * r0).
    { assert (E : B2R (fn_kappa p) / B2R (fn_kappa post) - r0 = r0 * ((ng_kappa x - B2R (fn_kappa post)) / B2R (fn_kappa post))) by (unfold r0; field; lra).
      rewrite E, Rabs_mult, (Rabs_pos_eq r0), (Rmult_comm _ r0) by lra. apply Rmult_le_compat_l; [lra|]. unfold Rdiv. rewrite Rabs_mult, (Rabs_pos_eq (/ B2R (fn_kappa post))) by (left; apply Rinv_0_lt_compat; lra).
      apply Rmult_le_reg_r with (B2R (fn_kappa post)); [lra|]. rewrite Rmult_assoc, Rinv_l, Rmult_1_r by lra.
      apply Rle_trans with (u53 * ng_kappa x); [apply Rabs_le; lra|nra]. }
    assert (Hr2 : Rabs (B2R (fn_kappa p) / B2R (fn_kappa post)) <= 2) by (apply abs_bnd in Hr1; apply Rabs_le; nra).
    destruct (div_ok (fn_kappa p) (fn_kappa post) Fk) as [Fd Vd]; [lra|eapply Rle_trans; [exact Hr2|apply (b2_le 1 1023); lia]|].
    replace (eps + 8 * u53) with (eps + 2 * (4 * u53)) by ring. apply log_close; [exact Fd| | |lra]; unfold ng_val; cbn [ng_kappa]; fold r0.
    - split; [eapply Rle_trans; [apply (b2_le (-1000) (-601)); lia|lra]|eapply Rle_trans; [apply Hr0|apply (b2_le 0 1000); lia]].
    - rewrite Vd. pose proof (RN64_err (B2R (fn_kappa p) / B2R (fn_kappa post))) as E.
      assert (Rabs (B2R (fn_kappa p) / B2R (fn_kappa post)) <= 3 / 2 * r0) by (apply abs_bnd in Hr1; apply Rabs_le; nra).
      assert (u53 * Rabs (B2R (fn_kappa p) / B2R (fn_kappa post)) <= u53 * (3 / 2 * r0)) by (apply Rmult_le_compat_l; lra).
      assert (He : b2 (-1075) <= / 4 * u53 * r0).
      { apply Rle_trans with (b2 (-2) * b2 (-53) * b2 (-601)); [rewrite <- !bpow_plus; apply b2_le; lia|]. change (b2 (-2)) with (/ 4). change (b2 (-53)) with u53. apply Rmult_le_compat_l; lra. }
      apply abs_bnd in Hr1. assert (E' : Rabs (RN64 (B2R (fn_kappa p) / B2R (fn_kappa post)) - B2R (fn_kappa p) / B2R (fn_kappa post)) <= 7 / 4 * u53 * r0) by lra.
      apply abs_bnd in E'. apply Rabs_le. lra. }
  pose proof pi_range as Hpi.
  assert (W2 : within (eps + 4 * u53) 1002 (flog f2pi) (ln (2 * PI))).
  { destruct H2pi as [F2 E2]. replace (eps + 4 * u53) with (eps + 2 * (2 * u53)) by ring. apply log_close; [exact F2| | |lra].
    - split; [apply tiny; lra|]. apply Rle_trans with (b2 3); [change (b2 3) with 8; lra|apply b2_le; lia].
    - eapply Rle_trans; [exact E2|]. nra. }
  (* factors *)
  assert (Wa0 : within 0 A (fn_alpha p) (ng_alpha (ng_val p))).
  { apply within_exact; [exact Fa|reflexivity|]. unfold ng_val, reg_A. cbn [ng_alpha]. rewrite Rabs_pos_eq; lra. }
  assert (Wa1 : within (u53 * A) A (fn_alpha post) (ng_alpha x)).
  { split; [exact A1|]. assert (Hax : 0 <= ng_alpha x <= A - 1) by (rewrite Ha; unfold reg_A; lra).
    assert (u53 * ng_alpha x <= u53 * A) by (apply Rmult_le_compat_l; lra).
    assert (u53 * A <= 1). { apply Rle_trans with (b2 (-53) * b2 31); [apply Rmult_le_compat_l; [left; apply b2_pos|apply HA]|]. rewrite <- bpow_plus. apply (b2_le _ 0). lia. }
    split; [|lra]. apply abs_bnd in A2. apply Rabs_le. lra. }
  destruct half_ok as [Fh Vh]. destruct (nat_exact N ltac:(lia) HN20 m Hm) as [Fm Vm].
  assert (Wh : within 0 (/ 2) f_half (/ 2)) by (apply within_exact; [exact Fh|exact Vh|rewrite Rabs_pos_eq; lra]).
  assert (Whm : within 0 A (f_mul f_half (f_nat m)) (/ 2 * INR m)).
  { destruct (mul_ok f_half (f_nat m) Fh Fm) as [F3 V3]; [rewrite Vh, Vm, Rabs_pos_eq by lra; apply Rle_trans with (b2 20); [lra|apply b2_le; lia]|].
    apply within_exact; [exact F3| |rewrite Rabs_pos_eq by lra; unfold reg_A; lra]. rewrite V3, Vh, Vm. apply RN64_fmt.
    rewrite Rmult_comm. change (/ 2) with (bpow radix2 (-1)). rewrite INR_IZR_INZ. apply fmt64_scaled; [|lia].
    rewrite INR_IZR_INZ in Q2. change (b2 20) with (IZR (2 ^ 20)) in Q2. apply le_IZR in Q2. lia. }
  (* the sum *)
  assert (HA1 : 1 <= A * 1002 <= b2 1000).
  { split; [lra|]. apply Rle_trans with (b2 31 * b2 10); [change (b2 10) with 1024; lra|]. rewrite <- bpow_plus. apply b2_le. lia. }
  assert (HB : 64 * (G + 1000 * A) <= b2 1000).
  { apply Rle_trans with (b2 (7 + 900)); [|apply b2_le; lia]. rewrite bpow_plus. change (b2 7) with 128. assert (1000 * A <= b2 900); [|lra].
    apply Rle_trans with (b2 10 * b2 31); [change (b2 10) with 1024; lra|]. rewrite <- bpow_plus. apply b2_le. lia. }
  unfold freg_log_p_data, reg_log_p_data.
  pose proof (within_mul _ _ _ _ _ _ _ _ Wa0 Wb0 HA1) as T2. pose proof (within_mul _ _ _ _ _ _ _ _ Wa1 Wb1 HA1) as T4.
  pose proof (within_mul _ _ _ _ _ _ _ _ Wh Wk ltac:(split; [lra|apply Rle_trans with (b2 10); [change (b2 10) with 1024; lra|apply b2_le; lia]])) as T6.
  pose proof (within_mul _ _ _ _ _ _ _ _ Whm W2 HA1) as T8.
  pose proof (within_sub _ _ _ _ _ _ _ _ Wg1 Wg0 ltac:(lra)) as T1.
  pose proof (within_add _ _ _ _ _ _ _ _ T1 T2 ltac:(lra)) as T3.
  pose proof (within_sub _ _ _ _ _ _ _ _ T3 T4 ltac:(lra)) as T5.
  pose proof (within_add _ _ _ _ _ _ _ _ T5 T6 ltac:(lra)) as T7.
  pose proof (within_sub _ _ _ _ _ _ _ _ T7 T8 ltac:(lra)) as T9.
  assert (S1 : u53 <= u53 * A) by nra. assert (S2 : eps <= A * eps) by nra. assert (S3 : 0 <= A * rb) by nra. assert (S4 : 0 <= u53 * G) by nra.
  assert (S5 : u53 * A * (eps + 2 * rb) <= u53 * A * 2) by (apply Rmult_le_compat_l; nra).
  eapply within_weaken; [exact T9| |lra]. unfold reg_side_err.
  lra.
Qed.
End Score.
