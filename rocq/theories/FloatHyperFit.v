(** * FloatHyperFit: hyperplane trees fitted in float64 on bounded rows. *)
From Coq Require Import Reals Lra Permutation String.
From Flocq Require Import Core BinarySingleNaN.
From Verif Require Import Prelude Lists Tree Perp RealOps Api Hyper Spec PruneProofs StructProofs PredictProofs SplitFacts HyperProofs HyperLemmas
  FloatFeat FloatReg FloatSum FloatNG FloatClf FloatClfSum FloatRegFit FloatImpFit FloatHyper FloatHyperDot.
Local Open Scope R_scope.

(** ** The planes of a fitted tree, for any arithmetic *)
Section Planes.
Context {W C N O J E Y P S : Type}.
Variable G : geo W C N O J E.
Variable L : lik Y P S.
Variable post : R -> P -> list Y -> P.
Variable X : nat -> W.
Variable y : nat -> Y.
Variable n_dim : nat.
Variable cands : list bool -> list C.
Variable n : nat.
Variable good : plane N O -> Prop.

(** Some candidate is the normal, two rows define the origin. *)
Definition proposed (cs : list C) (rows : list nat) (pl : plane N O) : Prop :=
  exists c k1 k2, In c cs /\ pl = mkPlane (g_unit G c) (g_mid G (X (nth k1 rows 0%nat)) (X (nth k2 rows 0%nat))).
Lemma compute_plane lvl prior rows ns st c : let st' := fst (opt_compute G L X y n_dim lvl prior rows ns st c) in
  o_plane st' = o_plane st \/ exists pl, o_plane st' = Some pl /\ proposed [c] rows pl.
Proof.
  unfold opt_compute. destruct (split_positions _ _) as [|s0 sl]; [left; reflexivity|]. set (lp := l_split _ _ _ _ _ _).
  destruct (nth_error lp (l_argmax L lp)) as [s|]; [|left; reflexivity]. destruct (nth_error (s0 :: sl) (l_argmax L lp)) as [k|]; [|left; reflexivity].
  destruct (l_ge L s _); [|left; reflexivity]. destruct (if l_gt L s _ then _ else _); [|left; reflexivity].
  right. eexists. split; [reflexivity|]. exists c. do 2 eexists. split; [left; reflexivity|reflexivity].
Qed.
Lemma run_plane lvl prior rows ns cs pl : o_plane (opt_run G L X y n_dim lvl prior rows ns cs) = Some pl -> proposed cs rows pl.
Proof.
  unfold opt_run. assert (H : forall cs' st, incl cs' cs -> (forall q, o_plane st = Some q -> proposed cs rows q) ->
    forall q, o_plane (fold_left (fun s c => fst (opt_compute G L X y n_dim lvl prior rows ns s c)) cs' st) = Some q -> proposed cs rows q).
  { induction cs' as [|c cs' IH]; intros st Hi Hst q; [exact (Hst q)|]. cbn [fold_left]. apply IH; [intros z Hz; apply Hi; right; exact Hz|].
    intros q' Hq'. destruct (compute_plane lvl prior rows ns st c) as [E1|(pl' & E1 & c' & k1 & k2 & [<-|[]] & E2)]; rewrite E1 in Hq'; [apply Hst; exact Hq'|].
    injection Hq' as <-. exists c, k1, k2. split; [apply Hi; left; reflexivity|exact E2]. }
  apply H; [apply incl_refl|]. intros q Hq. discriminate Hq.
Qed.

Hypothesis Hgood : forall path c i j k1 k2, In c (cands path) -> (i < n)%nat -> (j < n)%nat -> (k1 < n)%nat -> (k2 < n)%nat ->
  let pl := mkPlane (g_unit G c) (g_mid G (X i) (X j)) in hgo1 G X pl k1 = true -> hgo2 G X pl k2 = true -> good pl.
Hypothesis Hco : forall pl k, good pl -> (k < n)%nat -> hgo2 G X pl k = negb (hgo1 G X pl k).

Lemma hfit_good fuel : forall lvl path pa rows t, (0 < n)%nat -> (forall i, In i rows -> (i < n)%nat) ->
  hfit G L post X y n_dim cands fuel lvl path pa rows = Ok t ->
  Forall (fun s => good (fst (fst s))) (splits t) /\ counts_ok t /\ i_n_data (info t) = length rows.
Proof.
  induction fuel as [|fuel IH]; intros lvl path pa rows t Hn Hr H; [discriminate|].
  pose proof (hfit_levels G L post X y n_dim cands _ _ _ _ _ _ H) as (_ & Hd & _).
  apply hfit_inv in H as [->|(pl & c1 & c2 & Epl & -> & H1 & H2 & Hc)]; [split; [constructor|split; [exact I|exact Hd]]|].
  apply run_plane in Epl as (c & k1 & k2 & Hin & Epl).
  assert (Hlt : forall k, (nth k rows 0 < n)%nat) by (intros k; destruct (nth_in_or_default k rows 0%nat) as [Hk|Hk]; [apply Hr, Hk|rewrite Hk; exact Hn]).
  assert (Gp : good pl).
  { destruct (filter (hgo1 G X pl) rows) as [|a1 l1] eqn:E1; [congruence|]. destruct (filter (hgo2 G X pl) rows) as [|a2 l2] eqn:E2; [congruence|].
    assert (A1 : In a1 (filter (hgo1 G X pl) rows)) by (rewrite E1; left; reflexivity). assert (A2 : In a2 (filter (hgo2 G X pl) rows)) by (rewrite E2; left; reflexivity).
    apply filter_In in A1 as [A1 B1]. apply filter_In in A2 as [A2 B2]. subst pl. eapply (Hgood path c _ _ a1 a2); eauto. }
  assert (Hl : forall b rc c, (b = false /\ rc = filter (hgo1 G X pl) rows /\ c = c1) \/ (b = true /\ rc = filter (hgo2 G X pl) rows /\ c = c2) ->
    Forall (fun s => good (fst (fst s))) (splits c) /\ counts_ok c /\ i_n_data (info c) = length rc).
  { intros b rc c' Hb. destruct (Hc b rc c' Hb) as [->|(fuel' & Ef & H)]; [split; [constructor|split; [exact I|reflexivity]]|].
    injection Ef as <-. eapply IH; [exact Hn| |exact H]. intros i Hi. apply Hr. destruct Hb as [(_ & -> & _)|(_ & -> & _)]; apply filter_In in Hi; tauto. }
  destruct (Hl false _ c1 (or_introl (conj eq_refl (conj eq_refl eq_refl)))) as (G1 & C1 & N1).
  destruct (Hl true _ c2 (or_intror (conj eq_refl (conj eq_refl eq_refl)))) as (G2 & C2 & N2).
  split; [cbn [splits]; constructor; [exact Gp|apply Forall_app; split; assumption]|]. split; [|exact Hd]. cbn [counts_ok info i_n_data]. rewrite N1, N2.
  assert (length (filter (hgo1 G X pl) rows) + length (filter (hgo2 G X pl) rows) = length rows)%nat by (apply filter_partition; intros; apply Hco; auto).
  destruct (filter (hgo1 G X pl) rows); [congruence|]. destruct (filter (hgo2 G X pl) rows); [congruence|]. cbn [length] in *. repeat split; auto; lia.
Qed.
End Planes.

(** ** Rows and planes of bounded numbers *)
Definition within (M : R) (a : float64) : Prop := is_finite a = true /\ Rabs (B2R a) <= M.
Definition row64 (dim : nat) (x : list float64) : Prop := length x = dim /\ Forall (within (b2 900)) x.
Definition plane64 (dim : nat) (pl : plane (list float64) (list float64)) : Prop :=
  length (p_normal pl) = dim /\ Forall (within 2) (p_normal pl) /\ row64 dim (p_origin pl).
(** The exact dot product of two float64 vectors, the sum of the absolute values of the products, and the error of a computed one. *)
Definition xdot (a b : list float64) : R := dot (map B2R a) (map B2R b).
Definition adot (a b : list float64) : R := dot (map (fun x => Rabs (B2R x)) a) (map (fun x => Rabs (B2R x)) b).
Definition dot_bound (dim : nat) (a b : list float64) : R := 2 * INR dim * (u53 * adot a b + b2 (-1074)).

Lemma dsum_combine a : forall b, length a = length b -> dsum (combine a b) = xdot a b /\ dabs (combine a b) = adot a b.
Proof.
  induction a as [|x a IH]; intros [|z b] H; try discriminate; [split; reflexivity|]. injection H as H. destruct (IH b H) as [E1 E2].
  unfold xdot, adot, dot in *. cbn [combine map RealOps.map2]. rewrite dsum_cons, dabs_cons, E1, E2, Rabs_mult. split; reflexivity.
Qed.
Lemma adot_bound a : forall b M, length a = length b -> 0 <= M -> Forall (within M) a -> Forall (within 2) b -> 0 <= adot a b <= INR (length a) * (2 * M).
Proof.
  induction a as [|x a IH]; intros [|z b] M H HM Ha Hb; try discriminate; [unfold adot, dot, vsum; simpl; lra|]. injection H as H.
  inversion Ha as [|? ? [_ Hx] Ha']; subst. inversion Hb as [|? ? [_ Hz] Hb']; subst. specialize (IH b M H HM Ha' Hb').
  unfold adot, dot in *. cbn [map RealOps.map2]. unfold vsum in *. cbn [fold_right]. cbn [length]. rewrite S_INR.
  assert (0 <= Rabs (B2R x) * Rabs (B2R z) <= M * 2).
  { split; [apply Rmult_le_pos; apply Rabs_pos|]. apply Rmult_le_compat; auto using Rabs_pos. }
  lra.
Qed.
Lemma adot_comm a : forall b, length a = length b -> adot a b = adot b a.
Proof.
  induction a as [|x a IH]; intros [|z b] H; try discriminate; [reflexivity|]. injection H as H. specialize (IH b H). unfold adot, dot, vsum in *. cbn [map RealOps.map2 fold_right].
  rewrite IH. ring.
Qed.
Lemma fin_combine a : forall b M M', Forall (within M) a -> Forall (within M') b -> Forall fin_pair (combine a b).
Proof.
  induction a as [|x a IH]; intros [|z b] M M' Ha Hb; try constructor.
  - inversion Ha as [|? ? [F1 _] _]; inversion Hb as [|? ? [F2 _] _]; subst. split; assumption.
  - inversion Ha; inversion Hb; subst. eapply IH; eauto.
Qed.
Lemma big_dim dim : INR dim <= b2 20 -> INR dim * (2 * b2 900) <= b2 921.
Proof. intros H. change 2 with (b2 1). change (921)%Z with (20 + (1 + 900))%Z. rewrite !bpow_plus. apply Rmult_le_compat_r; [apply Rmult_le_pos; apply Rlt_le, b2_pos|exact H]. Qed.

(** A computed dot product of a bounded row and a bounded normal, in either order of the factors. *)
Lemma dot_close (dim : nat) (x v : list float64) (z : float64) : INR dim <= b2 20 -> row64 dim x -> length v = dim -> Forall (within 2) v ->
  dot_of (combine x v) z \/ dot_of (combine v x) z ->
  is_finite z = true /\ Rabs (B2R z) <= b2 1000 /\ Rabs (B2R z - xdot x v) <= dot_bound dim x v.
Proof.
  intros Hdim [Lx Hx] Lv Hv Hz. assert (HL : length x = length v) by congruence.
  pose proof (adot_bound x v (b2 900) HL ltac:(apply Rlt_le, b2_pos) Hx Hv) as [A0 A1]. rewrite Lx in A1. pose proof (big_dim dim Hdim) as A2.
  assert (B1 : b2 921 <= b2 950) by (apply b2_le; lia).
  assert (K : exists l, dot_of l z /\ Forall fin_pair l /\ dsum l = xdot x v /\ dabs l = adot x v /\ length l = dim).
  { destruct Hz as [Hz|Hz].
    - exists (combine x v). split; [exact Hz|]. split; [eapply fin_combine; eauto|]. destruct (dsum_combine x v HL). rewrite combine_length, <- HL, Nat.min_id. auto.
    - exists (combine v x). split; [exact Hz|]. split; [eapply fin_combine; eauto|]. destruct (dsum_combine v x (eq_sym HL)) as [E1 E2]. rewrite combine_length, HL, Nat.min_id.
      split; [|split; [rewrite E2; apply adot_comm; auto|exact Lv]]. rewrite E1. clear -HL. revert v HL. induction x as [|a x IH]; intros [|b v] H; try discriminate; [reflexivity|].
      injection H as H. specialize (IH v H). unfold xdot, dot, vsum in *. cbn [map RealOps.map2 fold_right]. rewrite IH. ring. }
  destruct K as (l & Hl & Hf & Es & Ea & El). destruct (dot_err l z Hl Hf) as (F & Z & R0); [lra|rewrite El; exact Hdim|].
  rewrite Es, Ea, El in R0. pose proof (dsum_dabs l) as HS. rewrite Es, Ea in HS.
  assert (Hu : 0 < u53 <= / 9007199254740992) by (rewrite u53_val; lra). pose proof (b2_pos (-1074)) as He. pose proof (pos_INR dim) as Hd.
  assert (B1000 : 4 * b2 950 <= b2 1000) by (change 4 with (b2 2); rewrite <- bpow_plus; apply b2_le; lia).
  assert (B950 : 1 <= b2 950) by (change 1 with (b2 0); apply b2_le; lia).
  split; [exact F|]. destruct l as [|p l].
  - rewrite (Z eq_refl). assert (E0 : xdot x v = 0) by (rewrite <- Es; reflexivity). rewrite E0, Rminus_0_r, Rabs_R0. split; [lra|]. unfold dot_bound.
    apply Rmult_le_pos; [lra|]. pose proof (Rmult_le_pos u53 (adot x v)). lra.
  - specialize (R0 ltac:(discriminate)). split; [|unfold dot_bound; lra].
    assert (He' : b2 (-1074) <= / 16777216) by (change (/ 16777216) with (b2 (-24)); apply b2_le; lia).
    change (b2 20) with 1048576 in Hdim.
    pose proof (err_size u53 (b2 (-1074)) (INR dim) (adot x v) _ Hu (conj He He') (conj Hd Hdim) A0 R0) as HE.
    replace (B2R z) with (B2R z - xdot x v + xdot x v) by ring. eapply Rle_trans; [apply Rabs_triang|]. lra.
Qed.

(** ** The two sides of a plane *)
Lemma RN64_opp x : RN64 (- x) = - RN64 x.
Proof. apply round_NE_opp. Qed.
Lemma side_finite (a b : float64) : is_finite a = true -> is_finite b = true -> Rabs (B2R a - B2R b) <= b2 1023 ->
  Bltb (f_sub a b) f_zero = Rlt_bool (B2R a) (B2R b) /\ Bleb f_zero (f_sub a b) = negb (Rlt_bool (B2R a) (B2R b)).
Proof.
  intros Fa Fb H. destruct (sub_ok a b Fa Fb H) as [F E]. rewrite Bltb_correct, Bleb_correct by (assumption || reflexivity). rewrite E.
  change (B2R f_zero) with 0. destruct (Rlt_bool_spec (B2R a) (B2R b)) as [Hlt|Hle]; cbn [negb].
  - assert (K : 0 < RN64 (- B2R a + B2R b)) by (apply RN64_sum_pos; [apply generic_format_opp, fmt_B2R|apply fmt_B2R|lra]).
    assert (K2 : RN64 (B2R a - B2R b) < 0).
    { replace (B2R a - B2R b) with (- (- B2R a + B2R b)) by ring. rewrite RN64_opp. lra. }
    split; [apply Rlt_bool_true, K2|apply Rle_bool_false, K2].
  - assert (K : 0 <= RN64 (B2R a - B2R b)) by (apply RN64_nonneg; lra).
    split; [apply Rlt_bool_false, K|apply Rle_bool_true, K].
Qed.
(** Rows on both sides: the constant of the plane is finite. *)
Lemma both_sides_finite (c m m' : float64) : Bltb (f_sub m c) f_zero = true -> Bleb f_zero (f_sub m' c) = true -> is_finite c = true.
Proof.
  intros H1 H2. destruct c as [s|[]| |s e f Hf]; try reflexivity; exfalso.
  - destruct m as [s|[]| |s e f Hf]; discriminate H1.
  - destruct m' as [s|[]| |s e f Hf]; discriminate H2.
  - destruct m as [s|[]| |s e f Hf]; discriminate H1.
Qed.
Lemma front_not_back (c m : float64) : Bleb f_zero (f_sub m c) = true -> Bltb (f_sub m c) f_zero = false.
Proof.
  destruct (f_sub m c) as [[]|[]| |[] e f Hf]; cbn; intros H; try reflexivity; try discriminate.
Qed.
Lemma mid_row64 dim x z : row64 dim x -> row64 dim z -> row64 dim (map2 (fun a b => f_mul f_half (f_add a b)) x z).
Proof.
  intros [Lx Hx] [Lz Hz]. revert z dim Lx Lz Hz. induction Hx as [|a x [Fa Ha] Hx IH]; intros [|b z] dim Lx Lz Hz; cbn in Lx, Lz; subst dim; try discriminate.
  - split; [reflexivity|constructor].
  - inversion Hz as [|? ? [Fb Hb] Hz']; subst. destruct (IH z (length x) eq_refl ltac:(injection Lz; auto) Hz') as [L0 F0]. cbn [map2].
    split; [cbn [length]; rewrite L0; reflexivity|]. constructor; [|exact F0].
    assert (B1 : b2 901 = 2 * b2 900) by (change (901)%Z with (1 + 900)%Z; rewrite bpow_plus; reflexivity).
    assert (B2 : b2 901 <= b2 1023) by (apply b2_le; lia). pose proof (b2_pos 900) as B0.
    assert (S1 : Rabs (B2R a + B2R b) <= b2 901) by (eapply Rle_trans; [apply Rabs_triang|]; lra).
    destruct (add_ok a b Fa Fb ltac:(lra)) as [F1 E1]. assert (S2 : Rabs (B2R (f_add a b)) <= b2 901) by (rewrite E1; apply RN64_abs_le; [lia|exact S1]).
    destruct half_ok as [Fh Eh].
    assert (S3 : Rabs (B2R f_half * B2R (f_add a b)) <= b2 900) by (rewrite Rabs_mult, Eh, (Rabs_pos_eq (/ 2)) by lra; lra).
    destruct (mul_ok f_half (f_add a b) Fh F1 ltac:(lra)) as [F2 E2]. split; [exact F2|]. rewrite E2. apply RN64_abs_le; [lia|exact S3].
Qed.

Section Float.
Variables (fdot fmv : list float64 -> list float64 -> float64) (fsum : list float64 -> float64).
Hypothesis dot_is : forall a b, length a = length b -> dot_of (combine a b) (fdot a b).
Hypothesis mv_is : forall a b, length a = length b -> dot_of (combine a b) (fmv a b).
Context {C : Type}.
Variable pre : C -> list float64.
Variable prec : float64.
Variable srt : (nat -> float64) -> nat -> list nat.
Variable dim : nat.
Hypothesis Hdim : INR dim <= b2 20.
Notation G := (geo_f fdot fmv fsum pre prec srt).

Lemma plane_sides pl x : plane64 dim pl -> row64 dim x ->
  g_front G (p_normal pl) (p_origin pl) x = negb (g_back G (p_normal pl) (p_origin pl) x) /\
  g_back G (p_normal pl) (p_origin pl) x = Rlt_bool (B2R (fmv x (p_normal pl))) (B2R (fdot (p_normal pl) (p_origin pl))).
Proof.
  intros (Ln & Hn & Ho) Hx.
  destruct (dot_close dim x (p_normal pl) (fmv x (p_normal pl)) Hdim Hx Ln Hn) as (F1 & S1 & _); [left; apply mv_is; destruct Hx; congruence|].
  destruct (dot_close dim (p_origin pl) (p_normal pl) (fdot (p_normal pl) (p_origin pl)) Hdim Ho Ln Hn) as (F2 & S2 & _); [right; apply dot_is; destruct Ho; congruence|].
  cbn [g_front g_back geo_f]. destruct (side_finite _ _ F1 F2) as [E1 E2].
  - eapply Rle_trans; [apply Rabs_triang|]. rewrite Rabs_Ropp. assert (2 * b2 1000 <= b2 1023) by (change 2 with (b2 1); rewrite <- bpow_plus; apply b2_le; lia). lra.
  - rewrite E1, E2. auto.
Qed.
Lemma plane_good c x1 x2 m m' : length (pre c) = dim -> row64 dim x1 -> row64 dim x2 ->
  let pl := mkPlane (g_unit G c) (g_mid G x1 x2) in
  g_back G (p_normal pl) (p_origin pl) m = true -> g_front G (p_normal pl) (p_origin pl) m' = true -> plane64 dim pl.
Proof.
  intros Lc H1 H2. cbn [p_normal p_origin g_unit g_mid g_back g_front geo_f]. intros B F.
  pose proof (both_sides_finite _ _ _ B F) as Fc. pose proof (mid_row64 dim x1 x2 H1 H2) as Hm.
  assert (Ln : length (f_unit fdot (pre c)) = dim) by (rewrite unit_length; exact Lc).
  split; [exact Ln|]. split; [|exact Hm]. cbn [p_normal].
  apply Forall_forall. intros a Ha. assert (Fa : is_finite a = true).
  { destruct (is_finite a) eqn:Ea; [reflexivity|]. exfalso. rewrite (dot_nonfin _ _ (dot_is _ _ ltac:(rewrite Ln; symmetry; apply Hm))) in Fc; [discriminate|].
    apply In_nth with (d := f_zero) in Ha as (k & Hk & Ek). set (w := map2 _ x1 x2) in *.
    exists (nth k (combine (f_unit fdot (pre c)) w) (f_zero, f_zero)). split; [apply nth_In; rewrite combine_length; destruct Hm as [-> _]; lia|].
    left. rewrite combine_nth by (destruct Hm; congruence). cbn [fst]. rewrite Ek. exact Ea. }
  split; [exact Fa|]. exact (unit_small fdot dot_is (pre c) a Ha Fa).
Qed.

(** The plane of a split comes from a candidate normal and two training rows. *)
Definition from_data (cands : list bool -> list C) {Y} (d : hset (list float64) Y) (pl : plane (list float64) (list float64)) : Prop :=
  exists path c i j, In c (cands path) /\ (i < hs_n d)%nat /\ (j < hs_n d)%nat /\
    p_normal pl = f_unit fdot (pre c) /\ p_origin pl = map2 (fun a b => f_mul f_half (f_add a b)) (hs_X d i) (hs_X d j).

Context {Y P S : Type}.
Variable L : lik Y P S.
Variable post : R -> P -> list Y -> P.
Variable same : ninfo P -> ninfo P -> bool.
Variable cands : list bool -> list C.
Variable d : hset (list float64) Y.

Theorem h64_total prn lvl pa : exists t, hyper_fit G L post same prn lvl pa cands d = Ok t.
Proof. apply hyper_total. intros nrm org x. cbn [g_front g_back geo_f]. apply front_not_back. Qed.

Hypothesis Hn : (0 < hs_n d)%nat.

Section Bounded.
Hypothesis Hrows : forall i, (i < hs_n d)%nat -> row64 dim (hs_X d i).
Hypothesis Hcands : forall path c, In c (cands path) -> length (pre c) = dim.

Theorem h64_structure prn lvl pa t : hyper_fit G L post same prn lvl pa cands d = Ok t ->
  i_n_data (info t) = hs_n d /\ counts_ok t /\ levels_ok lvl t /\ get_n_leaves t = length (leaves t) /\
  (1 <= length (leaves t) <= hs_n d)%nat /\ get_depth t = (lvl + height t)%nat /\ (height t < hs_n d)%nat /\
  Forall (fun s => plane64 dim (fst (fst s)) /\ from_data cands d (fst (fst s))) (splits t).
Proof.
  intros H. apply hyper_fit_inv in H as (t0 & E0 & Hp).
  pose proof (hfit_levels G L post (hs_X d) (hs_y d) (hs_dim d) cands _ _ _ _ _ _ E0) as (Hl & Hd & _).
  pose proof (hfit_good G L post (hs_X d) (hs_y d) (hs_dim d) cands (hs_n d) (fun pl => plane64 dim pl /\ from_data cands d pl)) as HG.
  eapply HG in E0; clear HG; [|intros path c i j k1 k2 Hc Hi Hj Hk1 Hk2; cbv zeta|intros pl k (Hpl & _) Hk|exact Hn|intros i Hi; apply in_seq in Hi; lia].
  - destruct E0 as (Hg & Hcnt & _). rewrite seq_length in Hd.
    pose proof (pruned_info _ _ Hp) as Hi. assert (Hcnt' : counts_ok t) by (eapply pruned_counts; eauto).
    assert (Hl' : levels_ok lvl t) by (eapply pruned_levels; eauto).
    assert (Hd' : i_n_data (info t) = hs_n d) by congruence.
    pose proof (leaves_le_data t Hcnt') as H1. pose proof (height_lt_leaves t) as H2. pose proof (leaves_pos t) as H3.
    specialize (H1 ltac:(lia)). rewrite Hd' in H1.
    repeat split; auto; try lia.
    + apply get_n_leaves_eq.
    + apply get_depth_eq; auto.
    + rewrite Forall_forall in *. intros s Hs. apply Hg. eapply pruned_splits; eauto.
  - unfold hgo1, hgo2. intros B F. split; [eapply plane_good; eauto|]. exists path, c, i, j. auto.
  - unfold hgo1, hgo2. apply plane_sides; auto.
Qed.

Theorem h64_nodes prn lvl pa t : (forall p ys, post 0 p ys = p) -> (forall p n m, l_prior L (Some p) n m = p) ->
  hyper_fit G L post same prn lvl pa cands d = Ok t ->
  nodes_ok (h64_back fdot fmv (hs_X d)) (h64_front fdot fmv (hs_X d)) (fun rows u => rows <> [] /\ i_n_data (info u) = length rows /\
    i_post (info u) = l_post L (l_prior L pa (hs_n d) (hs_dim d)) (map (hs_y d) rows)) (seq 0 (hs_n d)) t.
Proof.
  intros H0 H1 H. apply hyper_fit_inv in H as (t0 & E0 & Hp).
  eapply (hfit_nodes G L post (hs_X d) (hs_y d) (hs_dim d) cands H0 H1 pa) in E0; [|destruct (hs_n d); [lia|discriminate]|reflexivity|left; reflexivity].
  eapply pruned_nodes_ok' in E0; [|simpl; auto|simpl; auto|exact Hp].
  eapply nodes_ok_imp; [|exact E0]. cbv beta. rewrite seq_length. intros r u (R1 & R2 & R3 & _). auto.
Qed.

(** A query reaches exactly one leaf, whose answer it gets; a training row the leaf of its own. *)
Theorem h64_queries {O} (val : ninfo P -> O) (z : O) prn lvl pa t : (forall p ys, post 0 p ys = p) -> (forall p n m, l_prior L (Some p) n m = p) ->
  hyper_fit G L post same prn lvl pa cands d = Ok t ->
  forall Xq m q, (q < m)%nat -> row64 dim (Xq q) ->
  exists i rs, nth_error (predict_rows (h64_back fdot fmv Xq) (h64_front fdot fmv Xq) val t m z) q = Some (val i) /\
    rs <> [] /\ (forall k, In k rs -> (k < hs_n d)%nat) /\ i_n_data i = length rs /\
    i_post i = l_post L (l_prior L pa (hs_n d) (hs_dim d)) (map (hs_y d) rs) /\
    (forall k, (k < hs_n d)%nat -> Xq q = hs_X d k -> In k rs).
Proof.
  intros H0 H1 H Xq m q Hq Hx. pose proof (h64_nodes prn lvl pa t H0 H1 H) as HQ.
  pose proof (h64_structure prn lvl pa t H) as (_ & _ & _ & _ & _ & _ & _ & HS).
  destruct (lookup_reaches (h64_back fdot fmv Xq) (h64_front fdot fmv Xq) val t q) as (i & Hr & Hl).
  { intros e He. apply in_map_iff in He as (s & <- & Hs). rewrite Forall_forall in HS. destruct (HS s Hs) as [Hpl _].
    exact (proj1 (plane_sides _ _ Hpl Hx)). }
  destruct (leaf_rows _ _ _ _ _ _ _ Hr _ HQ) as (rs & K1 & (K2 & K3 & K4) & K5).
  exists i, rs. rewrite predict_rows_spec, nth_error_map, nth_error_seq. apply Nat.ltb_lt in Hq as Hb. rewrite Hb. cbn [option_map]. rewrite Nat.add_0_l, Hl.
  split; [reflexivity|]. split; [exact K2|]. split; [intros k Hk; apply K1, in_seq in Hk; lia|]. split; [exact K3|]. split; [exact K4|].
  intros k Hk E. apply K5; [| |apply in_seq; lia]; intros e He; [unfold h64_back in *|unfold h64_front in *]; rewrite E in He; exact He.
Qed.

(** A row that is clearly on one side in exact arithmetic is on that side. *)
Theorem h64_side pl x : plane64 dim pl -> row64 dim x ->
  let gap := xdot x (p_normal pl) - xdot (p_origin pl) (p_normal pl) in
  let bound := dot_bound dim x (p_normal pl) + dot_bound dim (p_origin pl) (p_normal pl) in
  (gap < - bound -> g_back G (p_normal pl) (p_origin pl) x = true /\ g_front G (p_normal pl) (p_origin pl) x = false) /\
  (bound < gap -> g_back G (p_normal pl) (p_origin pl) x = false /\ g_front G (p_normal pl) (p_origin pl) x = true).
Proof.
  intros Hpl Hx. cbv zeta. destruct (plane_sides pl x Hpl Hx) as [E1 E2]. destruct Hpl as (Ln & Hv & Ho). rewrite E1, E2.
  destruct (dot_close dim x (p_normal pl) (fmv x (p_normal pl)) Hdim Hx Ln Hv) as (_ & _ & S1); [left; apply mv_is; destruct Hx; congruence|].
  destruct (dot_close dim (p_origin pl) (p_normal pl) (fdot (p_normal pl) (p_origin pl)) Hdim Ho Ln Hv) as (_ & _ & S2); [right; apply dot_is; destruct Ho; congruence|].
  apply Rabs_le_inv in S1, S2. split; intros H; [rewrite Rlt_bool_true by lra|rewrite Rlt_bool_false by lra]; auto.
Qed.
End Bounded.

(** ** Tiny candidates *)
Definition tiny_vec (v : list float64) : Prop := Forall (within (b2 (-538))) v /\ exists a, In a v /\ B2R a <> 0.
Theorem h64_tiny prn lvl pa t : (forall i, (i < hs_n d)%nat -> length (hs_X d i) = dim) ->
  (forall path c, In c (cands path) -> length (pre c) = dim /\ tiny_vec (pre c)) ->
  hyper_fit G L post same prn lvl pa cands d = Ok t -> t = Leaf (info t) /\ i_n_data (info t) = hs_n d.
Proof.
  intros Hrows Hc H. apply hyper_fit_inv in H as (t0 & E0 & Hp).
  pose proof (hfit_good G L post (hs_X d) (hs_y d) (hs_dim d) cands (hs_n d) (fun _ => False)) as HG.
  eapply HG in E0; clear HG; [| |intros pl k []|exact Hn|intros i Hi; apply in_seq in Hi; lia].
  - destruct E0 as (Hg & _ & Hd). rewrite seq_length in Hd. destruct t0 as [i0|i0 e a b c1 c2]; [|inversion Hg as [|? ? []]]. inversion Hp; subst; auto.
  - intros path c i j k1 k2 Hin Hi Hj Hk1 Hk2. cbv zeta. unfold hgo1, hgo2. cbn [p_normal p_origin g_back g_front g_unit g_mid geo_f]. intros B F.
    destruct (Hc path c Hin) as (Lc & Ht & Hne). pose proof (both_sides_finite _ _ _ B F) as Fc.
    assert (Lm : length (map2 (fun a b => f_mul f_half (f_add a b)) (hs_X d i) (hs_X d j)) = dim).
    { pose proof (Hrows i Hi) as Li. pose proof (Hrows j Hj) as Lj. revert Li Lj. generalize (hs_X d i) (hs_X d j) dim. clear.
      induction l as [|a l IH]; intros [|b l0] n Li Lj; cbn in *; subst; try discriminate; auto. }
    pose proof (dot_is (f_unit fdot (pre c)) _ ltac:(rewrite unit_length, Lc; symmetry; exact Lm)) as Hdo. apply dot_nonfin in Hdo; [congruence|].
    pose proof Hne as (a & Ha & _). assert (H0 : (0 < dim)%nat) by (rewrite <- Lc; destruct (pre c); [destruct Ha|cbn; lia]).
    set (w := map2 _ _ _) in *. exists (nth 0%nat (combine (f_unit fdot (pre c)) w) (f_zero, f_zero)).
    split; [apply nth_In; rewrite combine_length, unit_length, Lc, Lm, Nat.min_id; exact H0|]. left. rewrite combine_nth by (rewrite unit_length; congruence). cbn [fst].
    apply (unit_tiny fdot dot_is (pre c) Ht Hne). apply nth_In. rewrite unit_length, Lc. exact H0.
Qed.
(** The candidates of [RandomTwoPointOptimizer] (hyperplane_optimization.py:198-203): the difference of two rows, or its negation. *)
Definition row_difference (v : list float64) : Prop := exists i j, (i < hs_n d)%nat /\ (j < hs_n d)%nat /\
  (v = map2 f_sub (hs_X d j) (hs_X d i) \/ v = map Bopp (map2 f_sub (hs_X d j) (hs_X d i))) /\ map B2R (hs_X d i) <> map B2R (hs_X d j).
Lemma diff_tiny x z : length x = length z -> Forall (within (b2 (-539))) x -> Forall (within (b2 (-539))) z ->
  Forall (within (b2 (-538))) (map2 f_sub x z) /\ (map B2R x <> map B2R z -> exists a, In a (map2 f_sub x z) /\ B2R a <> 0).
Proof.
  revert z. induction x as [|a x IH]; intros [|b z] HL Hx Hz; try discriminate; [split; [constructor|intros []; reflexivity]|].
  inversion Hx as [|? ? [Fa Ha] Hx']; subst. inversion Hz as [|? ? [Fb Hb] Hz']; subst. injection HL as HL. destruct (IH z HL Hx' Hz') as [I1 I2]. cbn [map2].
  assert (B1 : b2 (-538) = 2 * b2 (-539)) by (change (-538)%Z with (1 + -539)%Z; rewrite bpow_plus; reflexivity).
  assert (S1 : Rabs (B2R a - B2R b) <= b2 (-538)) by (eapply Rle_trans; [apply Rabs_triang|]; rewrite Rabs_Ropp; lra).
  assert (B2 : b2 (-538) <= b2 1023) by (apply b2_le; lia). destruct (sub_ok a b Fa Fb ltac:(lra)) as [F E].
  split; [constructor; [|exact I1]; split; [exact F|rewrite E; apply RN64_abs_le; [lia|exact S1]]|].
  intros Hne. cbn [map] in Hne. destruct (Req_dec (B2R a) (B2R b)) as [Eab|Eab].
  - destruct I2 as (u & Hu & Hu'); [intros K; apply Hne; congruence|]. exists u. split; [right; exact Hu|exact Hu'].
  - exists (f_sub a b). split; [left; reflexivity|]. rewrite E. destruct (Rlt_dec (B2R b) (B2R a)) as [Hlt|Hlt].
    + pose proof (RN64_sum_pos (B2R a) (- B2R b) (fmt_B2R a) ltac:(apply generic_format_opp, fmt_B2R) ltac:(lra)) as K. unfold Rminus. lra.
    + pose proof (RN64_sum_pos (- B2R a) (B2R b) ltac:(apply generic_format_opp, fmt_B2R) (fmt_B2R b) ltac:(lra)) as K.
      replace (B2R a - B2R b) with (- (- B2R a + B2R b)) by ring. rewrite RN64_opp. lra.
Qed.
Theorem h64_tiny_rows prn lvl pa t : (forall i, (i < hs_n d)%nat -> length (hs_X d i) = dim /\ Forall (within (b2 (-539))) (hs_X d i)) ->
  (forall path c, In c (cands path) -> row_difference (pre c)) ->
  hyper_fit G L post same prn lvl pa cands d = Ok t -> t = Leaf (info t) /\ i_n_data (info t) = hs_n d.
Proof.
  intros Hr Hc. apply h64_tiny; [intros i Hi; apply Hr, Hi|]. intros path c Hin. destruct (Hc path c Hin) as (i & j & Hi & Hj & Hv & Hne).
  destruct (Hr i Hi) as [Li Ti]. destruct (Hr j Hj) as [Lj Tj]. destruct (diff_tiny (hs_X d j) (hs_X d i) ltac:(congruence) Tj Ti) as [D1 D2].
  destruct (D2 ltac:(congruence)) as (a & Ha & Hna).
  assert (Ld : length (map2 f_sub (hs_X d j) (hs_X d i)) = dim).
  { revert Li Lj. generalize (hs_X d i) (hs_X d j) dim. clear. intros l l0. revert l. induction l0 as [|a l IH]; intros [|b l0] n Li Lj; cbn in *; subst; try discriminate; auto. }
  destruct Hv as [-> | ->]; [split; [exact Ld|split; eauto]|]. split; [rewrite map_length; exact Ld|]. split.
  - apply Forall_map. eapply Forall_impl; [|exact D1]. intros u [F1 F2]. split; [rewrite is_finite_Bopp; exact F1|rewrite B2R_Bopp, Rabs_Ropp; exact F2].
  - exists (Bopp a). split; [apply in_map, Ha|]. rewrite B2R_Bopp. lra.
Qed.
End Float.
