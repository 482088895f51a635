(** * StableEx: correctly rounded library functions, and a small problem on which the decisions are clear. *)
From Coq Require Import Reals Lra Permutation Sorted String FunctionalExtensionality.
From Flocq Require Import Core BinarySingleNaN.
From Verif Require Import Prelude Lists Tree Perp RealOps Clf Reg Api Spec PruneProofs PredictProofs FitProofs OptSpec OptProofs OptFit OptNodes Gamma Exec
  ApiSpec ApiProofs ClfSpec ClfProofs SplitFacts NodeFacts Routing Sim FloatFeat FloatProofs NumApi FloatReg FloatSum FloatNG FloatClf FloatClfSum FloatClfProofs Witness NumWitness FloatWitness
  Stable FloatClfErr FloatSame StableFit FloatOracle.
Local Open Scope R_scope.

(** ** The float64 number nearest to a real number *)
Definition f_of_R (r : R) : float64 :=
  binary_normalize 53 1024 prec64_pos prec64_lt mode_NE (Znearest (fun x => negb (Z.even x)) (scaled_mantissa radix2 fexp64 r)) (cexp radix2 fexp64 r) false.
Lemma f_of_R_ok r : Rabs r <= b2 1000 -> is_finite (f_of_R r) = true /\ B2R (f_of_R r) = RN64 r.
Proof.
  intros H. unfold f_of_R.
  pose proof (binary_normalize_correct 53 1024 prec64_pos prec64_lt mode_NE (Znearest (fun x => negb (Z.even x)) (scaled_mantissa radix2 fexp64 r)) (cexp radix2 fexp64 r) false) as E.
  cbv zeta in E. change (F2R _) with (RN64 r) in E.
  assert (R0 : round radix2 fexp64 (round_mode mode_NE) (RN64 r) = RN64 r).
  { apply RN64_fmt. apply generic_format_round; [apply vexp64|apply valid_rnd_N]. }
  rewrite R0 in E. rewrite Rlt_bool_true in E; [destruct E as (E1 & E2 & _); auto|].
  eapply Rle_lt_trans; [apply (RN64_abs_le r 1000); [lia|exact H]|]. apply bpow_lt. lia.
Qed.
Lemma f_of_R_err r z : (0 <= z <= 500)%Z -> Rabs r <= b2 z -> is_finite (f_of_R r) = true /\ Rabs (B2R (f_of_R r)) <= b2 z /\ Rabs (B2R (f_of_R r) - r) <= b2 (z - 52).
Proof.
  intros Hz H. destruct (f_of_R_ok r) as [F E]. { eapply Rle_trans; [exact H|apply b2_le; lia]. }
  split; [exact F|]. rewrite E. split; [apply RN64_abs_le; [lia|exact H]|].
  eapply Rle_trans; [apply RN64_err|]. replace (z - 52)%Z with ((z - 53) + 1)%Z by ring. rewrite bpow_plus. change (b2 1) with 2.
  assert (u53 * Rabs r <= b2 (z - 53)).
  { replace (z - 53)%Z with (-53 + z)%Z by ring. rewrite bpow_plus. apply Rmult_le_compat; [left; apply b2_pos|apply Rabs_pos|unfold u53; apply Rle_refl|exact H]. }
  assert (b2 (-1075) <= b2 (z - 53)) by (apply b2_le; lia). lra.
Qed.

(** Correctly rounded functions. *)
Definition log_cr (x : float64) : float64 := f_of_R (ln (B2R x)).
Definition gammaln_cr (x : float64) : float64 := f_of_R (gammaln (B2R x)).
Definition betaln_cr (x y : float64) : float64 := f_of_R (betaln (B2R x) (B2R y)).
Definition pow_cr (x : float64) (j : nat) : float64 := f_of_R (B2R x ^ j).

Lemma log_cr_accurate : log_accurate log_cr (b2 (-41)).
Proof.
  intros x F Hx. destruct (f_of_R_err (ln (B2R x)) 11) as (H1 & _ & H3); [lia| |split; [exact H1|exact H3]].
  assert (H1 : b2 (-1074) <= B2R x).
  { rewrite <- (Rabs_pos_eq (B2R x)) by lra. apply (@abs_B2R_ge_emin 53 1024). destruct x; try discriminate F; simpl in Hx; try lra. reflexivity. }
  assert (H2 : B2R x < b2 1024). { rewrite <- (Rabs_pos_eq (B2R x)) by lra. apply abs_B2R_lt_emax. }
  pose proof (b2_pos (-1074)). pose proof (ln_b2 (-1074)) as L1. pose proof (ln_b2 1024) as L2. apply abs_bnd in L1, L2.
  simpl (Z.abs _) in L1, L2.
  assert (ln (b2 (-1074)) <= ln (B2R x)) by (destruct H1 as [H1| <-]; [left; apply ln_increasing; lra|lra]).
  assert (ln (B2R x) < ln (b2 1024)) by (apply ln_increasing; lra).
  change (b2 11) with 2048. apply Rabs_le. lra.
Qed.
Lemma half_pow j : (B2R f_half) ^ j = b2 (- Z.of_nat j).
Proof.
  destruct half_ok as [_ E]. rewrite E. induction j as [|j IH]; [reflexivity|]. cbn [pow]. rewrite IH.
  replace (- Z.of_nat (S j))%Z with (-1 + - Z.of_nat j)%Z by lia. rewrite bpow_plus. change (b2 (-1)) with (/ 2). lra.
Qed.
Lemma pow_cr_accurate depth : (depth <= 500)%nat -> pow_accurate pow_cr f_half depth 0.
Proof.
  intros Hd j Hj. unfold pow_cr. destruct (f_of_R_ok (B2R f_half ^ j)) as [F E].
  { rewrite half_pow, Rabs_pos_eq by (left; apply b2_pos). apply b2_le. lia. }
  split; [exact F|]. rewrite E, RN64_fmt, Rminus_eq_0, Rabs_R0, Rmult_0_l; [apply Rle_refl|].
  rewrite half_pow. apply generic_format_bpow. rewrite fexp64_FLT. unfold FLT_exp. lia.
Qed.
Lemma gammaln_small i : (1 <= i)%nat -> 0 <= gammaln (INR i) <= INR i * INR i.
Proof.
  intros Hi. induction Hi as [|i Hi IH]; [simpl; rewrite gammaln_1; lra|].
  pose proof (le_INR _ _ Hi) as Hi'. rewrite S_INR, gammaln_succ by (simpl in Hi'; lra). simpl in Hi'.
  pose proof (ln_le_1 (INR i) ltac:(lra)). assert (0 <= ln (INR i)). { rewrite <- ln_1. destruct Hi' as [H1| <-]; [left; apply ln_increasing; lra|lra]. } nra.
Qed.
Lemma betaln_cr_accurate m : (m <= 1000)%nat -> betaln_accurate betaln_cr m (b2 (-30)) (b2 22).
Proof.
  intros Hm i j Hi Hj Hij. unfold betaln_cr. destruct (nat_float i) as [_ ->]; [lia|]. destruct (nat_float j) as [_ ->]; [lia|].
  apply (f_of_R_err (betaln (INR i) (INR j)) 22); [lia|].
  unfold betaln. rewrite <- plus_INR. pose proof (gammaln_small i Hi). pose proof (gammaln_small j Hj). pose proof (gammaln_small (i + j) ltac:(lia)).
  assert (B : forall x, (x <= m)%nat -> INR x * INR x <= 1000000).
  { intros x Hx. pose proof (pos_INR x). assert (INR x <= 1000). { replace 1000 with (INR 1000) by (rewrite INR_IZR_INZ; reflexivity). apply le_INR. lia. } nra. }
  pose proof (B i ltac:(lia)). pose proof (B j ltac:(lia)). pose proof (B (i + j)%nat ltac:(lia)).
  change (b2 22) with 4194304. apply Rabs_le. lra.
Qed.
Lemma gammaln_cr_accurate m : (m <= 1000)%nat -> gammaln_accurate gammaln_cr m (b2 (-32)) (b2 20).
Proof.
  intros Hm i Hi. unfold gammaln_cr. destruct (nat_float i) as [_ ->]; [lia|].
  apply (f_of_R_err (gammaln (INR i)) 20); [lia|]. pose proof (gammaln_small i ltac:(lia)).
  assert (INR i * INR i <= 1000000).
  { pose proof (pos_INR i). assert (INR i <= 1000). { replace 1000 with (INR 1000) by (rewrite INR_IZR_INZ; reflexivity). apply le_INR. lia. } nra. }
  change (b2 20) with 1048576. apply Rabs_le. lra.
Qed.

(** ** Two rows of different classes *)
Definition two_tau : R := clf_tau (b2 (-41) + 2 * 0 + 4 * u53) (b2 (-30)) (b2 22).
Lemma two_logs n : (Z.of_nat n < 2 ^ 53)%Z -> logs_within log_cr pow_cr f_half n 1 3 (b2 (-41) + 2 * 0 + 4 * u53) 1000.
Proof.
  intros Hn. destruct half_ok as [_ E].
  apply (logs_accurate log_cr pow_cr f_half n 1 3 (b2 (-41)) 0 0).
  - rewrite E. lra.
  - rewrite half_pow. apply b2_le. lia.
  - rewrite E. replace (1 - / 2) with (b2 (-1)) by (change (b2 (-1)) with (/ 2); lra). apply b2_le. lia.
  - lia.
  - rewrite Nat.mul_1_r. exact Hn.
  - apply log_cr_accurate.
  - change 1 with (b2 0). apply b2_le. lia.
  - apply pow_cr_accurate. lia.
  - lra.
  - lra.
Qed.
Lemma two_set : clf64_setting f_sum log_cr gammaln_cr betaln_cr pow_cr f_half f_zero 2 3 [f_nat 1; f_nat 1] (fun i => i) (b2 (-41) + 2 * 0 + 4 * u53) (b2 (-30)) (b2 22) label_set.
Proof.
  constructor.
  - apply label_ok.
  - reflexivity.
  - split; [lia|reflexivity].
  - reflexivity.
  - destruct (nat_float 1 eq_refl) as [_ E]. assert (0 < B2R (f_nat 1)) by (rewrite E; simpl; lra). apply Forall_cons; [assumption|apply Forall_cons; [assumption|constructor]].
  - apply label_ok.
  - cbn [ts_n ts_dim label_set]. intros lvl Hl. destruct (two_logs 2 eq_refl lvl Hl) as [H1 H2].
    assert (Hw : forall x y, within (b2 (-41) + 2 * 0 + 4 * u53) 1000 x y -> within (b2 (-41) + 2 * 0 + 4 * u53) (b2 22) x y).
    { intros x y (W1 & W2 & W3). split; [exact W1|]. split; [|exact W3]. change (b2 22) with 4194304. lra. }
    split; [apply Hw, H1|]. intros m Hm. apply Hw, H2, Hm.
  - apply betaln_two; [lia|lia|reflexivity|]. apply betaln_cr_accurate. simpl. lia.
  - apply b2_le. lia.
Qed.

Definition two_exact : tset R R := exact_set (fun i => i) label_set (fun i c => B2R (ts_X label_set i c)).
Definition half_h : hyper (list R) := mkHyper (B2R f_half) (Some (map B2R [f_nat 1; f_nat 1])) 0 false 0.
Lemma two_X i c : ts_X two_exact i c = if Nat.eqb i 0 then 1 else 2.
Proof.
  cbn [two_exact exact_set ts_X label_set two_rows]. destruct (Nat.eqb i 0).
  - apply Bone_correct.
  - change f2 with (f_add f_one f_one). destruct one_ok as [F E].
    destruct (int_add f_one f_one 1 1) as [_ Ea]; [split; assumption|split; assumption|reflexivity|exact Ea].
Qed.
Lemma two_prior : map B2R [f_nat 1; f_nat 1] = [1; 1].
Proof. destruct (nat_float 1 eq_refl) as [_ E]. cbn [map]. rewrite E. reflexivity. Qed.
Lemma two_setting : clf_setting (argsort_by Rleb) 2 (map B2R [f_nat 1; f_nat 1]) half_h two_exact.
Proof.
  destruct half_ok as [_ E]. split; [apply sort_R_sorts|]. split; [unfold hyper_ok; cbn [half_h h_pp h_delta h_prec]; rewrite E; lra|]. split; [apply label_ok|]. split; [reflexivity|].
  split; [reflexivity|]. split; [rewrite two_prior; repeat constructor; lra|].
  intros i Hi. exists i. split; [exact Hi|reflexivity].
Qed.
Lemma sort_pair {A} (leb : A -> A -> bool) srt key : sorts leb srt -> leb (key 1%nat) (key 0%nat) = false -> srt key 2%nat = [0; 1]%nat.
Proof.
  intros Hs H. destruct (Hs key 2%nat) as [Hp Hst]. set (l := srt key 2%nat) in *. pose proof (Permutation_length Hp) as Hl. simpl in Hl.
  destruct l as [|a [|b [|c l]]]; try discriminate. clear Hl.
  assert (Hab : [a; b] = [0; 1]%nat \/ [a; b] = [1; 0]%nat) by (apply Permutation_length_2_inv; symmetry; exact Hp).
  destruct Hab as [|E]; auto. injection E as -> ->. inversion Hst as [|? ? _ Hf]; subst. inversion Hf; subst. congruence.
Qed.
Lemma two_agree srt c : sorts fleb srt -> argsort_by Rleb (fun i => B2R (ts_X label_set i c)) 2%nat = srt (fun i => ts_X label_set i c) 2%nat.
Proof.
  intros Hs. transitivity [0; 1]%nat; [apply (sort_pair Rleb); [apply sort_R_sorts|]|symmetry; apply (sort_pair fleb); [exact Hs|vm_compute; reflexivity]].
  pose proof (two_X 0 c) as E0. pose proof (two_X 1 c) as E1. cbn [Nat.eqb two_exact exact_set ts_X] in E0, E1. rewrite E0, E1. apply Rleb_false. lra.
Qed.
Lemma two_admissible f a b : admissible 0 two_exact f [0; 1]%nat a b <-> a = 1 /\ b = 2.
Proof.
  unfold admissible. split.
  - intros ((i & Hi & Ei) & (j & Hj & Ej) & Hab & _). rewrite two_X in Ei, Ej. destruct (Nat.eqb i 0), (Nat.eqb j 0); lra.
  - intros [-> ->]. repeat split; try lra.
    + exists 0%nat. rewrite two_X. split; [left|]; reflexivity.
    + exists 1%nat. rewrite two_X. split; [right; left|]; reflexivity.
    + intros i Hi. rewrite two_X. destruct (Nat.eqb i 0); lra.
Qed.
Lemma two_count f m : n_admissible 0 two_exact f [0; 1]%nat m <-> m = 1%nat.
Proof.
  split.
  - intros (cs & Hd & <- & H). assert (Hin : In (1, 2) cs) by (apply H, two_admissible; auto).
    assert (Hall : forall x, In x cs -> x = (1, 2)). { intros [a b] Hx. apply H, two_admissible in Hx. destruct Hx. congruence. }
    destruct cs as [|x [|z cs]]; [contradiction|reflexivity|]. exfalso. inversion Hd as [|? ? Hn _]; subst. apply Hn. left.
    rewrite (Hall x), (Hall z); simpl; auto.
  - intros ->. exists [(1, 2)]. split; [repeat constructor; intros []|]. split; [reflexivity|]. intros a b. rewrite two_admissible. simpl. split.
    + intros [E|[]]. injection E as <- <-. auto.
    + intros [-> ->]. auto.
Qed.
Notation two_ev := (clf_ev (map B2R [f_nat 1; f_nat 1])).
Lemma two_stop : stop_value (B2R f_half) two_ev 0 two_exact [0; 1]%nat = ln (1 / 12).
Proof.
  unfold stop_value, targets, clf_ev. rewrite two_prior. cbn [map two_exact exact_set ts_y]. destruct half_ok as [_ E]. rewrite E.
  unfold dm_prob. cbn [seq_prob app]. unfold predictive, count_label. cbn [filter length]. rewrite !label_INR. cbn [nth Nat.eqb length]. unfold vsum. cbn [fold_right INR].
  rewrite <- ln_mult by (simpl; lra). f_equal. simpl. lra.
Qed.
Lemma two_split f a b v : split_value (B2R f_half) 0 two_ev 0 two_exact [0; 1]%nat f a b v <-> f = 0%nat /\ a = 1 /\ b = 2 /\ v = ln (1 / 8).
Proof.
  unfold split_value. rewrite two_admissible. cbn [two_exact exact_set ts_dim label_set two_rows]. fold two_exact.
  assert (Ev : ln (B2R f_half ^ (1 + 0) / (INR 1 * INR 1)) + two_ev (targets two_exact (filter (fun i => Rleb (ts_X two_exact i 0%nat) 1) [0; 1]%nat)) +
     two_ev (targets two_exact (filter (fun i => Rltb 1 (ts_X two_exact i 0%nat)) [0; 1]%nat)) = ln (1 / 8)).
  { cbn [filter]. rewrite !two_X. cbn [Nat.eqb].
    replace (Rleb 1 1) with true by (symmetry; apply Rleb_true; lra). replace (Rleb 2 1) with false by (symmetry; apply Rleb_false; lra).
    replace (Rltb 1 1) with false by (symmetry; apply Rltb_false; lra). replace (Rltb 1 2) with true by (symmetry; apply Rltb_true; lra).
    unfold targets, clf_ev. rewrite two_prior. cbn [map two_exact exact_set ts_y]. destruct half_ok as [_ E]. rewrite E.
    unfold dm_prob. cbn [seq_prob app]. unfold predictive, count_label. cbn [filter length]. rewrite !label_INR. cbn [nth Nat.eqb length]. unfold vsum. cbn [fold_right INR].
    rewrite <- !ln_mult by (simpl; lra). f_equal. simpl. lra. }
  split.
  - intros (Hf & [-> ->] & m & Hm & ->). apply two_count in Hm. subst m. assert (f = 0%nat) as -> by lia. repeat split; auto.
  - intros (-> & -> & -> & ->). split; [lia|]. split; [auto|]. exists 1%nat. split; [apply two_count; reflexivity|]. symmetry. exact Ev.
Qed.
Lemma two_tau_small : 0 <= two_tau <= / 100.
Proof.
  unfold two_tau, clf_tau. rewrite u53_val. change (b2 (-41)) with (/ 2199023255552). change (b2 (-30)) with (/ 1073741824). change (b2 22) with 4194304. lra.
Qed.
Lemma two_margin : ln (1 / 12) + 1 / 3 <= ln (1 / 8).
Proof. pose proof (ln_le_1 (2 / 3) ltac:(lra)) as H. replace (1 / 12) with (1 / 8 * (2 / 3)) by lra. rewrite ln_mult by lra. lra. Qed.
(** The exact tree splits between the rows, and clearly so. *)
Lemma two_clear : exists te, clf_fit (argsort_by Rleb) half_h two_exact = Ok te /\
  every_node two_exact te (clear_node (B2R f_half) 0 two_ev two_tau 3 two_exact) /\
  exists i d a b c1 c2, te = Split i d a b c1 c2.
Proof.
  destruct (clf_fit_opt _ _ _ _ _ two_setting) as (te & t0 & E & Ho & Et & _). cbn [h_prune half_h] in Et. subst t0.
  exists te. split; [exact E|]. cbn [half_h h_prec h_pp h_delta h_prior] in Ho.
  pose proof two_tau_small as Ht. pose proof two_margin as Hm.
  assert (CV : forall f a b v, cand Rleb (gap_R 0) (clf_tgt (B2R f_half) 0) (ts_X two_exact) (ts_y two_exact) (ts_dim two_exact) 0 (map B2R [f_nat 1; f_nat 1]) (all_rows two_exact) f a b v <->
     f = 0%nat /\ a = 1 /\ b = 2 /\ v = ln (1 / 8)).
  { intros f a b v. rewrite <- two_split. exact (cand_value (clf_tgt (B2R f_half) 0) (B2R f_half) 0 clf_ev two_exact (clf_scored _ _) 0 (map B2R [f_nat 1; f_nat 1]) [0; 1]%nat f a b v). }
  pose proof two_stop as Hst. unfold stop_value, clf_ev in Hst.
  inversion Ho as [? ? ? pr Hpr Hno|? ? ? pr f a b s nm c1 c2 Hpr Hcd Hg Hmax Hnm H1 H2]; subst; cbn [t_prior clf_tgt] in *.
  - exfalso. apply (Hno 0%nat 1 2 (ln (1 / 8))); [apply CV; auto|]. cbn [t_stop clf_tgt t_gt]. change (map (ts_y two_exact) (all_rows two_exact)) with (targets two_exact [0; 1]%nat). rewrite Hst. lra.
  - apply CV in Hcd. destruct Hcd as (-> & -> & -> & ->).
    split; [|do 6 eexists; reflexivity].
    split.
    + cbn [clear_node]. cbn [node_info i_level]. split; [lia|]. split.
      { cbn [t_stop clf_tgt]. change (map (ts_y two_exact) (all_rows two_exact)) with (targets two_exact [0; 1]%nat). rewrite Hst. lra. }
      exists 1, 2. split; [unfold mid_R; cbn; lra|]. split; [apply two_split; auto|].
      intros f' a' b' v' Hv' Hne. apply two_split in Hv'. destruct Hv' as (-> & -> & -> & ->). exfalso. apply Hne. reflexivity.
    + assert (HL : forall c rows rows', opt_child Rleb (gap_R 0) mid_R (clf_tgt (B2R f_half) 0) (ts_X two_exact) (ts_y two_exact) (ts_names two_exact) (ts_dim two_exact) 0 (map B2R [f_nat 1; f_nat 1]) rows c ->
        (length rows <= 1)%nat -> nodes_ok (goes_left (ts_X two_exact)) (goes_right (ts_X two_exact)) (clear_node (B2R f_half) 0 two_ev two_tau 3 two_exact) rows' c).
      { intros c rows rows' Hc Hl. inversion Hc; subst; [lia|]. split; [|exact I]. cbn. split; [lia|left; reflexivity]. }
      split; eapply HL; try eassumption; unfold left_rows, right_rows; cbn [all_rows two_exact exact_set ts_n label_set seq filter]; fold two_exact; rewrite !two_X; cbn [Nat.eqb].
      * replace (Rleb 1 1) with true by (symmetry; apply Rleb_true; lra). replace (Rleb 2 1) with false by (symmetry; apply Rleb_false; lra). simpl; lia.
      * replace (Rleb 1 1) with true by (symmetry; apply Rleb_true; lra). replace (Rleb 2 1) with false by (symmetry; apply Rleb_false; lra). simpl; lia.
Qed.
(** Everything [same_float] asks for. *)
Lemma two_float srt : sorts fleb srt ->
  (is_finite f0 = true /\ B2R f0 = 0) /\ sorts Rleb (argsort_by Rleb) /\
  (forall c, (c < ts_dim label_set)%nat -> argsort_by Rleb (fun i => B2R (ts_X label_set i c)) (ts_n label_set) = srt (fun i => ts_X label_set i c) (ts_n label_set)) /\
  finite_entries 53 1024 (ts_X label_set) (ts_n label_set) (ts_dim label_set) /\
  separable 53 1024 prec64_pos prec64_lt f0 (ts_X label_set) (ts_n label_set) (ts_dim label_set).
Proof.
  intros Hs. destruct label_ok as (_ & H1 & H2 & _). split; [split; reflexivity|]. split; [apply sort_R_sorts|]. split; [intros c _; apply two_agree, Hs|]. split; [exact H1|exact H2].
Qed.

(** ** A query between the exact and the computed threshold *)
Definition f1_2 : float64 := Bsucc (Bsucc f1).
Definition f1_5 : float64 := Bsucc (Bsucc (Bsucc f1_2)).
Lemma near_values : B2R f1 = 4503599627370496 * / 4503599627370496 /\ B2R f1_2 = 4503599627370498 * / 4503599627370496 /\ B2R f1_5 = 4503599627370501 * / 4503599627370496.
Proof.
  assert (V : forall (x : float64) m, B2SF x = SpecFloat.S754_finite false m (-52) -> B2R x = IZR (Zpos m) * / 4503599627370496).
  { intros x m E. rewrite <- SF2R_B2SF, E. reflexivity. }
  split; [|split]; apply V; vm_compute; reflexivity.
Qed.
Lemma query_differs : exists (d : tset float64 R) (h : hyper (list R)) (q : nat -> nat -> float64), forall srt, sorts fleb srt -> exists t t',
  tset_ok d /\ finite_entries 53 1024 (ts_X d) (ts_n d) (ts_dim d) /\ separable 53 1024 prec64_pos prec64_lt f0 (ts_X d) (ts_n d) (ts_dim d) /\ (forall i c, is_finite (q i c) = true) /\
  fclf_fit srt f0 h d = Ok t /\ clf_fit (argsort_by Rleb) h (B2R_set d) = Ok t' /\
  fclf_predict t q 1 = [1] /\ clf_predict t' (fun i c => B2R (q i c)) 1 = [0].
Proof.
  exists (two_rows f1 f1_5), two_h, (fun _ _ => f1_2). intros srt Hs.
  destruct near_values as (V1 & V2 & V5).
  destruct (float_two f1 f1_5 srt Hs) as (i0 & nm & a & b & l1 & l2 & E & N1 & N2 & P1 & P2); [vm_compute; reflexivity..|].
  assert (R01 : Rabs (B2R f1_5 - B2R f1) > 0 /\ Rabs (B2R f1 - B2R f1_5) > 0).
  { rewrite (Rabs_minus_sym (B2R f1)), V1, V5, Rabs_pos_eq; lra. }
  destruct (two_rows_fit (feat_R 0 (argsort_by Rleb)) (B2R f1) (B2R f1_5)) as (j0 & nm' & v & a' & b' & l1' & l2' & E' & Hv & N1' & N2' & P1' & P2').
  { apply (sort_two Rleb); [apply sort_R_sorts|]. apply Rleb_false. rewrite V1, V5. lra. }
  { apply Rgtb_true. apply R01. }
  { apply Rgtb_true. apply R01. }
  { apply Rgtb_false. rewrite Rminus_eq_0, Rabs_R0. lra. }
  { apply Rgtb_false. rewrite Rminus_eq_0, Rabs_R0. lra. }
  do 2 eexists. split; [unfold tset_ok; simpl; repeat split; lia|]. split; [apply two_finite; vm_compute; reflexivity|]. split.
  { intros i j c Hi Hj Hc Hlt _. simpl in Hlt |- *. destruct (Nat.eqb i 0), (Nat.eqb j 0); try (vm_compute in Hlt; discriminate).
    split; [vm_compute; reflexivity|]. exists (mid_f f1 f1_5). split; vm_compute; reflexivity. }
  split; [intros; vm_compute; reflexivity|]. split; [exact E|]. split.
  { replace (B2R_set (two_rows f1 f1_5)) with (two_rows (B2R f1) (B2R f1_5)); [exact E'|].
    unfold B2R_set, two_rows. cbn [ts_n ts_dim ts_X ts_y ts_names]. f_equal. apply functional_extensionality. intros i. apply functional_extensionality. intros c.
    destruct (Nat.eqb i 0); reflexivity. }
  unfold fclf_predict, clf_predict. rewrite !predict_rows_spec. cbn [seq map lookup]. split.
  - replace (f_right _ _ _) with true by (vm_compute; reflexivity). cbv iota. rewrite P2, leaf_class_1. reflexivity.
  - assert (Ev : v = 9007199254740997 * / 9007199254740992). { cbn [f_mid feat_R] in Hv. unfold mid_R in Hv. rewrite V1, V5 in Hv. destruct Hv; lra. }
    unfold goes_left, goes_right. cbn [sd_dim sd_val]. rewrite V2, Ev.
    replace (Rgeb _ _) with false by (symmetry; apply Rgeb_false; lra). replace (Rltb _ _) with true by (symmetry; apply Rltb_true; lra).
    rewrite P1', leaf_class_0. reflexivity.
Qed.
