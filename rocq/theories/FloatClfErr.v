(** * FloatClfErr: float64 classification scores against the exact ones, for logarithms and beta functions with known errors. *)
From Coq Require Import Reals Lra Permutation Sorted Psatz String.
From Flocq Require Import Core BinarySingleNaN.
From Verif Require Import Prelude Lists Tree Perp RealOps Gamma Clf Api Spec ApiSpec OptSpec OptProofs OptFit ClfSpec ClfProofs
  FloatFeat FloatReg FloatClf FloatSum FloatNG FloatClfSum FloatClfProofs HyperExec Stable.
Local Open Scope R_scope.

(** [x'] is a number of size at most [B] within [e] of [x]. *)
Definition within (e B : R) (x' : float64) (x : R) : Prop :=
  is_finite x' = true /\ Rabs (B2R x') <= B /\ Rabs (B2R x' - x) <= e.

(** The logarithms of the partition prior (classification.py:66, 82), up to level [depth] and for fewer than [n] cuts. *)
Definition logs_within (flog : float64 -> float64) (fpow : float64 -> nat -> float64) (pp : float64) (n n_dim depth : nat) (e B : R) : Prop :=
  forall lvl, (lvl <= depth)%nat ->
    within e B (flog (f_sub f_one (fpow pp (1 + lvl)%nat))) (ln (1 - B2R pp ^ (1 + lvl))) /\
    forall m, (1 <= m < n)%nat ->
      within e B (flog (f_div (fpow pp (1 + lvl)%nat) (f_nat (m * n_dim)%nat))) (ln (B2R pp ^ (1 + lvl) / (INR m * INR n_dim))).
(** [multivariate_betaln] of the prior and of every posterior of at most [n] targets. *)
Definition betaln_within (fsum : list float64 -> float64) (fgammaln : float64 -> float64) (fbetaln : float64 -> float64 -> float64)
    (prior : list float64) (n : nat) (e B : R) : Prop :=
  within e B (cl64_betaln fsum fgammaln fbetaln prior) (multivariate_betaln (map B2R prior)) /\
  forall ks, length ks = length prior -> (list_sum ks <= n)%nat ->
    within e B (cl64_betaln fsum fgammaln fbetaln (map2 f_add prior (map f_nat ks)))
      (multivariate_betaln (map2 Rplus (map B2R prior) (map INR ks))).

(** ** Rounded additions *)
Lemma abs_bnd x t : Rabs x <= t -> - t <= x <= t.
Proof. unfold Rabs. destruct (Rcase_abs x); lra. Qed.
Lemma within_pos e B a x : within e B a x -> 0 <= e /\ 0 <= B.
Proof. intros (_ & H1 & H2). pose proof (Rabs_pos (B2R a)). pose proof (Rabs_pos (B2R a - x)). lra. Qed.
Lemma within_add e1 e2 B1 B2 a b x y : within e1 B1 a x -> within e2 B2 b y -> B1 + B2 <= b2 1000 ->
  within (e1 + e2 + u53 * (B1 + B2)) (2 * (B1 + B2)) (f_add a b) (x + y).
Proof.
  intros Ha Hb HB. pose proof (within_pos _ _ _ _ Ha). pose proof (within_pos _ _ _ _ Hb).
  destruct Ha as (Fa & Ba & Ea), Hb as (Fb & Bb & Eb).
  assert (Hs : Rabs (B2R a + B2R b) <= B1 + B2) by (eapply Rle_trans; [apply Rabs_triang|lra]).
  destruct (add_ok a b Fa Fb) as [Fc Ec].
  { eapply Rle_trans; [exact Hs|]. eapply Rle_trans; [exact HB|]. apply b2_le. lia. }
  pose proof (add_rel (B2R a) (B2R b) (fmt_B2R a) (fmt_B2R b)) as R1.
  assert (Hu : 0 < u53 <= / 9007199254740992) by (rewrite u53_val; lra).
  assert (R2 : u53 * Rabs (B2R a + B2R b) <= u53 * (B1 + B2)) by (apply Rmult_le_compat_l; lra).
  assert (R3 : u53 * (B1 + B2) <= B1 + B2) by nra.
  apply abs_bnd in Hs. apply abs_bnd in Ea. apply abs_bnd in Eb.
  assert (R4 : Rabs (RN64 (B2R a + B2R b) - (B2R a + B2R b)) <= u53 * (B1 + B2)) by lra. apply abs_bnd in R4.
  split; [exact Fc|]. rewrite Ec. split; apply Rabs_le; lra.
Qed.
Lemma sub_rel a b : fmt64 a -> fmt64 b -> Rabs (RN64 (a - b) - (a - b)) <= u53 * Rabs (a - b).
Proof. intros Ha Hb. apply (add_rel a (- b)); auto. apply generic_format_opp. exact Hb. Qed.
Lemma within_sub e1 e2 B1 B2 a b x y : within e1 B1 a x -> within e2 B2 b y -> B1 + B2 <= b2 1000 ->
  within (e1 + e2 + u53 * (B1 + B2)) (2 * (B1 + B2)) (f_sub a b) (x - y).
Proof.
  intros Ha Hb HB. pose proof (within_pos _ _ _ _ Ha). pose proof (within_pos _ _ _ _ Hb).
  destruct Ha as (Fa & Ba & Ea), Hb as (Fb & Bb & Eb).
  assert (Hs : Rabs (B2R a - B2R b) <= B1 + B2).
  { apply abs_bnd in Ba. apply abs_bnd in Bb. apply Rabs_le. lra. }
  destruct (sub_ok a b Fa Fb) as [Fc Ec].
  { eapply Rle_trans; [exact Hs|]. eapply Rle_trans; [exact HB|]. apply b2_le. lia. }
  pose proof (sub_rel (B2R a) (B2R b) (fmt_B2R a) (fmt_B2R b)) as R1.
  assert (Hu : 0 < u53 <= / 9007199254740992) by (rewrite u53_val; lra).
  assert (R2 : u53 * Rabs (B2R a - B2R b) <= u53 * (B1 + B2)) by (apply Rmult_le_compat_l; lra).
  assert (R3 : u53 * (B1 + B2) <= B1 + B2) by nra.
  apply abs_bnd in Hs. apply abs_bnd in Ea. apply abs_bnd in Eb.
  assert (R4 : Rabs (RN64 (B2R a - B2R b) - (B2R a - B2R b)) <= u53 * (B1 + B2)) by lra. apply abs_bnd in R4.
  split; [exact Fc|]. rewrite Ec. split; apply Rabs_le; lra.
Qed.
Lemma within_weaken e B e' B' a x : within e B a x -> e <= e' -> B <= B' -> within e' B' a x.
Proof. intros (H1 & H2 & H3) He HB. split; [exact H1|]. split; lra. Qed.

(** ** The scores *)
Section Scores.
Variable fsum : list float64 -> float64.
Variables (flog fgammaln : float64 -> float64) (fbetaln : float64 -> float64 -> float64) (fpow : float64 -> nat -> float64).
Variables (pp delta : float64).
Variables (n n_dim k depth : nat) (prior : list float64) (lab : nat -> nat) (y : nat -> float64).
Variables el eb B : R.
Hypothesis Hdelta : Beqb delta f_zero = true.
Hypothesis Hk : (0 < k)%nat /\ (Z.of_nat k < 2 ^ 53)%Z.
Hypothesis Hdim : n_dim <> 0%nat.
Hypothesis Hlen : length prior = k.
Hypothesis Hpos : Forall (fun a => 0 < B2R a) prior.
Hypothesis Hy : forall i, (i < n)%nat -> y i = f_nat (lab i) /\ (lab i < k)%nat.
Hypothesis Hlogs : logs_within flog fpow pp n n_dim depth el B.
Hypothesis Hbeta : betaln_within fsum fgammaln fbetaln prior n eb B.
Hypothesis HB : B <= b2 900.

Definition clf_tau (el eb B : R) : R := el + 4 * eb + 32 * u53 * B.
Notation tau := (clf_tau el eb B).
Notation L := (cl64_lik fsum flog fgammaln fbetaln fpow pp delta).
Notation T := (clf_tgt (B2R pp) 0).
Definition yR (lab : nat -> nat) (i : nat) : R := INR (lab i).
Notation lbl := (yR lab).
Notation good := (good n).
Definition prior_rel (prior : list float64) (p : list R) (p' : list float64) : Prop := p = map B2R prior /\ p' = prior.

Lemma pok : clf_pok k (map B2R prior).
Proof. split; [rewrite map_length; exact Hlen|]. apply Forall_map. exact Hpos. Qed.
Lemma yok rows : (forall i, In i rows -> (i < n)%nat) -> Forall (clf_yok k) (map lbl rows).
Proof. intros H. apply Forall_map, Forall_forall. intros i Hi. exists (lab i). split; [apply Hy, H, Hi|reflexivity]. Qed.

Lemma label_count_label c rows : count_label c (map lbl rows) = label_count lab c rows.
Proof.
  unfold count_label, label_count. induction rows as [|i l IH]; [reflexivity|]. cbn [map filter]. unfold yR at 1. rewrite label_INR.
  destruct (Nat.eqb (lab i) c); simpl; congruence.
Qed.
Lemma list_sum_INR l : INR (list_sum l) = vsum (map INR l).
Proof. induction l as [|a l IH]; [reflexivity|]. unfold list_sum, vsum in *. simpl. rewrite plus_INR, IH. reflexivity. Qed.

(** The evidence of the rows. *)
Lemma side_within rows : (forall i, In i rows -> (i < n)%nat) -> (length rows <= n)%nat ->
  within (2 * eb + 2 * u53 * B) (4 * B)
    (f_sub (cl64_betaln fsum fgammaln fbetaln (cl64_posterior1 prior (map y rows))) (cl64_betaln fsum fgammaln fbetaln prior))
    (ln (dm_prob (map B2R prior) (map lbl rows))).
Proof.
  intros Hr Hn. destruct Hbeta as [H0 H1]. rewrite <- (betaln_dm k _ _ pok (yok rows Hr)).
  set (ks := map (fun c => label_count lab c rows) (seq 0 k)).
  assert (Hyr : forall i, In i rows -> y i = f_nat (lab i) /\ (lab i < k)%nat) by auto.
  assert (E1 : cl64_posterior1 prior (map y rows) = map2 f_add prior (map f_nat ks)).
  { unfold cl64_posterior1. rewrite Hlen, (counts_eq k lab y rows) by (auto; lia). reflexivity. }
  assert (E2 : add_counts 1 (map B2R prior) (map lbl rows) = map2 Rplus (map B2R prior) (map INR ks)).
  { unfold add_counts, ks. rewrite map_map, map2_map_r. rewrite <- Hlen, <- (map_length B2R prior) at 1.
    rewrite map2_seq. apply map_ext. intros c. rewrite label_count_label. lra. }
  assert (Hs : (list_sum ks <= n)%nat).
  { apply INR_le. rewrite list_sum_INR. unfold ks. rewrite map_map, (counts_total k lab y rows) by (auto; lia). apply le_INR. exact Hn. }
  rewrite E1, E2. assert (HB2 : B + B <= b2 1000).
  { apply Rle_trans with (b2 901); [|apply b2_le; lia]. change (b2 901) with (b2 (1 + 900)). rewrite bpow_plus. change (b2 1) with 2. lra. }
  eapply within_weaken; [apply within_sub; [apply H1|exact H0|exact HB2]|lra|lra].
  - unfold ks. rewrite map_length, seq_length. auto.
  - exact Hs.
Qed.

Lemma good_facts rows : good rows -> (forall i, In i rows -> (i < n)%nat) /\ (length rows <= n)%nat.
Proof.
  intros (H1 & _ & H3). split; [exact H3|]. rewrite <- (seq_length n 0). apply NoDup_incl_length; [exact H1|].
  intros i Hi. apply in_seq. specialize (H3 i Hi). lia.
Qed.
Lemma B_small c : 0 <= c <= 16 -> 0 <= B -> c * B <= b2 1000.
Proof.
  intros Hc H0. apply Rle_trans with (16 * b2 900); [apply Rmult_le_compat; lra|]. change 16 with (b2 4). rewrite <- bpow_plus. apply b2_le. lia.
Qed.

Lemma stop_within lvl rows : good rows -> (lvl <= depth)%nat ->
  within tau (10 * B) (cl64_no_split fsum flog fgammaln fbetaln fpow pp lvl prior (map y rows)) (t_stop T lvl (map B2R prior) (map lbl rows)).
Proof.
  intros Hg Hl. destruct (good_facts rows Hg) as [Hr Hn]. destruct (Hlogs lvl Hl) as [H1 _].
  pose proof (within_pos _ _ _ _ H1) as [P1 P2]. pose proof (within_pos _ _ _ _ (proj1 Hbeta)) as [P3 _].
  pose proof (side_within rows Hr Hn) as H2. cbn [t_stop clf_tgt]. unfold cl64_no_split.
  assert (Hu : 0 <= u53 * B) by (apply Rmult_le_pos; [rewrite u53_val; lra|exact P2]).
  eapply within_weaken; [apply within_add; [exact H1|exact H2|]| |].
  - replace (B + 4 * B) with (5 * B) by ring. apply B_small; lra.
  - unfold clf_tau. lra.
  - lra.
Qed.

Lemma cut_within lvl m l r : (lvl <= depth)%nat -> (1 <= m < n)%nat -> (forall i, In i (l ++ r) -> (i < n)%nat) -> (length (l ++ r) <= n)%nat ->
  within tau (28 * B)
    (f_add (f_add (flog (f_div (fpow pp (1 + lvl)%nat) (f_nat (m * n_dim)%nat)))
                  (f_sub (cl64_betaln fsum fgammaln fbetaln (cl64_posterior1 prior (map y l))) (cl64_betaln fsum fgammaln fbetaln prior)))
           (f_sub (cl64_betaln fsum fgammaln fbetaln (cl64_posterior1 prior (map y r))) (cl64_betaln fsum fgammaln fbetaln prior)))
    (t_cut T lvl (map B2R prior) n_dim m (map lbl l) (map lbl r)).
Proof.
  intros Hl Hm Hr Hn. destruct (Hlogs lvl Hl) as [_ H1]. specialize (H1 m Hm). rewrite app_length in Hn.
  pose proof (within_pos _ _ _ _ H1) as [P1 P2]. pose proof (within_pos _ _ _ _ (proj1 Hbeta)) as [P3 _].
  assert (H2 := side_within l (fun i Hi => Hr i (in_or_app l r i (or_introl Hi))) ltac:(lia)).
  assert (H3 := side_within r (fun i Hi => Hr i (in_or_app l r i (or_intror Hi))) ltac:(lia)).
  cbn [t_cut clf_tgt].
  assert (Hu : 0 <= u53 * B) by (apply Rmult_le_pos; [rewrite u53_val; lra|exact P2]).
  eapply within_weaken; [apply within_add; [apply within_add; [exact H1|exact H2|]|exact H3|]| |].
  - replace (B + 4 * B) with (5 * B) by ring. apply B_small; lra.
  - replace (2 * (B + 4 * B) + 4 * B) with (14 * B) by ring. apply B_small; lra.
  - unfold clf_tau. lra.
  - lra.
Qed.

Lemma finite_argmax' l : Forall (fun a : float64 => is_finite a = true) l -> f_argmax l = argmax Rgtb (map B2R l).
Proof.
  intros H. unfold f_argmax. symmetry. apply (argmax_map _ Rgtb B2R (fun a => is_finite a = true) l H). intros a b Fa Fb.
  assert (Na : forall x : float64, is_finite x = true -> is_nan x = false) by (intros [| | |]; auto; discriminate).
  rewrite (Na a Fa). cbn [andb orb]. rewrite Bltb_correct by auto.
  destruct (Rlt_bool_spec (B2R b) (B2R a)) as [Hl|Hl].
  - unfold Rgtb, Rltb. destruct Rlt_dec; [reflexivity|lra].
  - unfold Rgtb, Rltb. destruct Rlt_dec; [lra|reflexivity].
Qed.

Lemma many_labels rows : good rows -> f_many (map y rows) = true <-> many (map lbl rows).
Proof.
  intros Hg. destruct (good_facts rows Hg) as [Hr _]. destruct rows as [|i l]; [destruct Hg as (_ & H & _); congruence|].
  assert (Eq : forall j, In j (i :: l) -> Beqb (y j) (y i) = Nat.eqb (lab j) (lab i)).
  { intros j Hj. destruct (Hy j (Hr j Hj)) as [E1 L1]. destruct (Hy i (Hr i (or_introl eq_refl))) as [E2 L2].
    rewrite E1, E2. apply f_nat_eqb; lia. }
  cbn [map f_many]. rewrite existsb_exists. split.
  - intros (b & Hb & Hn). apply in_map_iff in Hb as (j & <- & Hj). rewrite (Eq j (or_intror Hj)) in Hn.
    apply negb_true_iff, Nat.eqb_neq in Hn. exists (lbl i), (lbl j). unfold yR.
    split; [left; reflexivity|]. split; [right; apply (in_map lbl l j Hj)|]. intros E. apply INR_eq in E. congruence.
  - intros (a & b & Ha & Hb & Hab).
    assert (H : forall v, In v (lbl i :: map lbl l) -> v <> lbl i -> exists j, In j l /\ lab j <> lab i).
    { intros v [<-|Hv] Hne; [congruence|]. apply in_map_iff in Hv as (j & <- & Hj). exists j. split; [exact Hj|]. intros E. apply Hne. unfold yR. congruence. }
    assert (Hj : exists j, In j l /\ lab j <> lab i).
    { destruct (Req_EM_T a (lbl i)) as [Ea|Ea]; [|apply (H a Ha Ea)]. apply (H b Hb). congruence. }
    destruct Hj as (j & Hj & Hne). exists (y j). split; [apply in_map; exact Hj|].
    rewrite (Eq j (or_intror Hj)). apply negb_true_iff, Nat.eqb_neq. exact Hne.
Qed.

Lemma sorted_len a m : forall ks, StronglySorted lt ks -> (forall x, In x ks -> (a <= x < m)%nat) -> (length ks <= m - a)%nat.
Proof.
  intros ks Hs Hr. rewrite <- (seq_length (m - a) a). apply NoDup_incl_length.
  - clear Hr. induction Hs as [|x l H IH Hx]; constructor; auto. intros Hi. rewrite Forall_forall in Hx. specialize (Hx x Hi). lia.
  - intros x Hx. specialize (Hr x Hx). apply in_seq. lia.
Qed.

Theorem cl64_apx : apx_law T L lbl y n n_dim depth B2R (fun a : float64 => is_finite a = true) tau (prior_rel prior).
Proof.
  constructor.
  - intros p p' m [-> ->]. split; reflexivity.
  - intros lvl p p' rows [-> ->] Hg Hl. destruct (stop_within lvl rows Hg Hl) as (H1 & _ & H3). split; assumption.
  - intros lvl p p' row ks [-> ->] Hg Hl Hne Hs Hr. cbn [l_split cl64_lik]. unfold cl64_split.
    destruct (good_facts row Hg) as [Gr Gn].
    assert (Hm : (1 <= length ks < n)%nat).
    { pose proof (sorted_len 1 (length row) ks Hs Hr). destruct ks as [|k0 ks]; [congruence|]. specialize (Hr k0 (or_introl eq_refl)). simpl in *. lia. }
    set (m := length ks) in *. clearbody m. clear Hs Hne. induction ks as [|k0 ks IH]; cbn [map]; constructor.
    + destruct (cut_within lvl m (firstn k0 row) (skipn k0 row) Hl Hm) as (H1 & _ & H3).
      * rewrite firstn_skipn. exact Gr.
      * rewrite firstn_skipn. exact Gn.
      * rewrite firstn_map, skipn_map. split; assumption.
    + apply IH. intros k1 Hk1. apply Hr. right. exact Hk1.
  - intros a b Fa Fb. cbn [l_gt cl64_lik]. rewrite Bltb_correct by auto. unfold Rgtb, Rltb.
    destruct (Rlt_bool_spec (B2R b) (B2R a)); destruct Rlt_dec; auto; lra.
  - intros l Hl. apply finite_argmax'. exact Hl.
  - intros p p' rows [-> ->] Hg. cbn [t_child_prior clf_tgt l_child_prior cl64_lik]. rewrite Hdelta. split; [|reflexivity].
    unfold add_counts. transitivity (map (fun c => nth c (map B2R prior) 0) (seq 0 (length (map B2R prior)))); [|apply ClfProofs.map_seq_nth]. apply map_ext. intros c. lra.
  - intros rows Hg. apply many_labels. exact Hg.
Qed.
End Scores.
