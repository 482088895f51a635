(** * FloatWitness: statements and data sets of C81 and C82. *)
From Coq Require Import Reals Lra Permutation Psatz String.
From Flocq Require Import Core BinarySingleNaN.
From Verif Require Import Prelude Lists Tree Perp RealOps Reg Api Spec ApiSpec RegSpec OptProofs Routing Exec Witness FloatFeat FloatProofs NumApi NumWitness
  FloatReg FloatRegProofs FloatSum FloatNG FitPrior FloatNGFit FloatClf FloatClfSum FloatClfProofs FloatClfFit.
Local Open Scope R_scope.

(** ** C81 *)
Lemma far_finite i f : is_finite (far_X i f) = true /\ is_finite (far_y i) = true.
Proof. unfold far_X, far_y. destruct (i <? 2)%nat; split; vm_compute; reflexivity. Qed.
Lemma far_beta : exists (prior : fng) (ys : list float64),
  B2R (fn_beta prior) = 1 /\ Forall (fun a => is_finite a = true) ys /\ (0 < List.length ys < 8)%nat /\
  Bltb (fn_beta (freg_posterior f_sum f_one prior ys)) f_zero = true.
Proof.
  exists far_prior, (gather far_y [0; 1; 2; 3]%nat). split; [apply Bone_correct|]. split; [|split; [simpl; lia|exact (far_negative _ (Permutation_refl _))]].
  apply Forall_forall. intros a Ha. apply in_map_iff in Ha as (i & <- & _). apply (far_finite i 0).
Qed.
Lemma far_refuted : exists (prior : fng) (d : tset float64 float64) (priorR : ng) (dR : tset R R),
  (priorR = mkNG (B2R (fn_mu prior)) (B2R (fn_kappa prior)) (B2R (fn_alpha prior)) (B2R (fn_beta prior)) /\
   ts_n dR = ts_n d /\ ts_dim dR = ts_dim d /\ ts_names dR = ts_names d /\
   (forall i f, is_finite (ts_X d i f) = true /\ ts_X dR i f = B2R (ts_X d i f)) /\ (forall i, is_finite (ts_y d i) = true /\ ts_y dR i = B2R (ts_y d i))) /\
  (forall fsum flog fgammaln fpow f2pi pp delta srt same prn, permutes srt -> (forall l, (List.length l < 8)%nat -> fsum l = f_sum l) ->
    (forall x, Bltb x f_zero = true -> is_nan (flog x) = true) ->
    exists i, perp_fit (feat_f f_zero srt) (freg_lik fsum flog fgammaln fpow f2pi pp delta) same prn 0 (Some prior) d = Ok (Leaf i)) /\
  (forall prn, let h := mkHyper (9 / 10) (Some priorR) 0 prn 0 in reg_setting sort_R priorR h dR /\
    exists t, reg_fit sort_R h dR = Ok t /\ height t = 1%nat /\ List.length (leaves t) = 2%nat).
Proof.
  exists far_prior, far_set, far_priorR, far_setR. split; [|split].
  - split; [reflexivity|]. repeat (split; [reflexivity|]). split.
    + intros i f. split; [apply far_finite|reflexivity].
    + intros i. split; [apply (far_finite i 0)|reflexivity].
  - exact far_leaf.
  - exact far_exact.
Qed.
(** Targets 0, 0, 3, 3. *)
Definition four_z (i : nat) : Z := if (i <? 2)%nat then 0%Z else 3%Z.
Definition four_set : tset float64 float64 := mkSet 4 1 far_X (fun i => f_int (four_z i)) ["x"%string].
Definition half_pow (x : float64) (k : nat) : float64 := Nat.iter k (f_mul x) f_one.
Lemma half_pow_ok k : is_finite (half_pow f_half k) = true /\ 0 <= B2R (half_pow f_half k) <= 1.
Proof.
  induction k as [|k [F E]]; [destruct one_ok as [F E]; split; [exact F|]; change (half_pow f_half 0) with f_one; rewrite E; lra|].
  destruct half_ok as [Fh Eh]. change (half_pow f_half (S k)) with (f_mul f_half (half_pow f_half k)).
  destruct (mul_ok f_half (half_pow f_half k) Fh F) as [F' E'].
  { rewrite Eh, Rabs_pos_eq by lra. apply Rle_trans with (b2 0); [change (b2 0) with 1; lra|apply b2_le; lia]. }
  split; [exact F'|]. rewrite E', Eh. split; [apply RN64_nonneg; lra|]. rewrite <- (RN64_fmt 1) by (apply (fmt64_int 1); lia). apply RN64_le. lra.
Qed.
Lemma four_ok : int_targets four_set four_z /\ square_sum four_set four_z = 18%Z /\ tset_ok four_set /\
  (forall l, sum_of l (f_sum l)) /\ prior_range (freg_get_prior None 4 1) 18 /\
  (forall k, (1 <= k)%nat -> is_finite (half_pow f_half k) = true /\ 0 <= B2R (half_pow f_half k) <= 1).
Proof.
  split; [|split; [reflexivity|split; [unfold tset_ok; simpl; repeat split; lia|split; [exact f_sum_sum|split; [apply default_range; lia|intros k _; apply half_pow_ok]]]]].
  intros i _. cbn [four_set ts_y]. apply int_ok. unfold four_z. destruct (i <? 2)%nat; lia.
Qed.

(** ** C82 *)
Theorem float_probabilities fsum flog fgammaln fbetaln fpow pp delta p srt same (d : tset float64 float64) lab k prior pa do_prune lvl t :
  (forall l, sum_of l (fsum l)) -> Beqb delta f_zero = true -> (0 < k)%nat /\ (Z.of_nat k <= 2 ^ 20)%Z ->
  cl64_get_prior pa (ts_n d) (ts_dim d) = prior -> List.length prior = k -> Forall (fun a => nonneg_fin a /\ B2R a <= bpow radix2 900) prior ->
  (Z.of_nat (ts_n d) < 2 ^ 53)%Z -> (forall i, (i < ts_n d)%nat -> ts_y d i = f_nat (lab i) /\ (lab i < k)%nat) ->
  Bltb p f0 = false -> sorts fleb srt -> tset_ok d -> finite_entries 53 1024 (ts_X d) (ts_n d) (ts_dim d) ->
  separable 53 1024 prec64_pos prec64_lt p (ts_X d) (ts_n d) (ts_dim d) ->
  perp_fit (feat_f p srt) (cl64_lik fsum flog fgammaln fbetaln fpow pp delta) same do_prune lvl pa d = Ok t ->
  nodes_ok (f_left (ts_X d)) (f_right (ts_X d)) (fun rows u => i_n_data (info u) = List.length rows /\ node_probabilities fsum lab k prior rows u)
    (seq 0 (ts_n d)) t.
Proof.
  intros Hsum Hdelta Hk Hpa Hlen Hpr Hn Hy Hp Hs Hd Hfin Hsep E.
  exact (routed fsum flog fgammaln fbetaln fpow pp delta same _ _ (feat_f p srt) d lab k prior pa Hsum Hdelta Hk Hpa Hlen Hpr Hn Hy Hd fleb do_prune lvl t
    (fleb_refl 53 1024) Hs (float_threshold 53 1024 _ _ ltac:(lia) p srt _ _ _ Hp Hfin Hsep) E).
Qed.
Theorem float_majority fsum flog fgammaln fbetaln fpow pp delta p srt same (d : tset float64 float64) lab k w pa do_prune lvl t :
  Beqb delta f_zero = true -> (0 < k)%nat /\ (Z.of_nat k <= 2 ^ 20)%Z ->
  cl64_get_prior pa (ts_n d) (ts_dim d) = repeat w k -> is_finite w = true -> 0 <= B2R w <= bpow radix2 50 ->
  (Z.of_nat (ts_n d) <= 2 ^ 50)%Z -> (forall i, (i < ts_n d)%nat -> ts_y d i = f_nat (lab i) /\ (lab i < k)%nat) ->
  Bltb p f0 = false -> sorts fleb srt -> tset_ok d -> finite_entries 53 1024 (ts_X d) (ts_n d) (ts_dim d) ->
  separable 53 1024 prec64_pos prec64_lt p (ts_X d) (ts_n d) (ts_dim d) ->
  perp_fit (feat_f p srt) (cl64_lik fsum flog fgammaln fbetaln fpow pp delta) same do_prune lvl pa d = Ok t ->
  nodes_ok (f_left (ts_X d)) (f_right (ts_X d)) (node_majority lab k) (seq 0 (ts_n d)) t.
Proof.
  intros Hdelta Hk Hpa Fw Hw Hn Hy Hp Hs Hd Hfin Hsep E.
  exact (routed_majority fsum flog fgammaln fbetaln fpow pp delta same _ _ (feat_f p srt) d lab k w pa fleb do_prune lvl t Hdelta Hk Hpa Fw Hw Hn Hy Hd
    (fleb_refl 53 1024) Hs (float_threshold 53 1024 _ _ ltac:(lia) p srt _ _ _ Hp Hfin Hsep) E).
Qed.
Lemma tie_prior_ok : Forall (fun a => is_finite a = true /\ 1 <= B2R a) tie_prior.
Proof.
  assert (H : forall a : float64, is_finite a = true -> Bleb f_one a = true -> is_finite a = true /\ 1 <= B2R a).
  { intros a Fa Ha. split; [exact Fa|]. destruct one_ok as [F1 E1]. rewrite Bleb_correct in Ha by auto. rewrite E1 in Ha.
    destruct (Rle_bool_spec 1 (B2R a)); [assumption|discriminate]. }
  unfold tie_prior. apply Forall_cons; [|apply Forall_cons; [|apply Forall_cons; [|constructor]]]; apply H; vm_compute; reflexivity.
Qed.
Lemma tie_refuted : exists (prior : list float64) (d : tset float64 float64) (post : list float64),
  Forall (fun a => is_finite a = true /\ 1 <= B2R a) prior /\ tset_ok d /\
  (forall i, (i < ts_n d)%nat -> ts_y d i = f_nat i) /\
  (forall fsum flog fgammaln fbetaln fpow pp delta srt same prn, permutes srt ->
    exists i, perp_fit (feat_f f_zero srt) (cl64_lik fsum flog fgammaln fbetaln fpow pp delta) same prn 0 (Some prior) d = Ok (Leaf i) /\ i_post i = post) /\
  cl64_predict_leaf post = 1%nat /\ f_argmax (cl64_mean f_sum post) = 0%nat /\
  Bltb (nth 0 post f_zero) (nth 1 post f_zero) = true /\ Beqb (nth 0 (cl64_mean f_sum post) f_zero) (nth 1 (cl64_mean f_sum post) f_zero) = true.
Proof.
  exists tie_prior, tie_set, tie_post. split; [exact tie_prior_ok|]. split; [unfold tset_ok; simpl; repeat split; lia|]. split; [reflexivity|].
  split; [exact tie_leaf|]. exact tie_classes.
Qed.
(** Two rows 1 and 2 with the classes 0 and 1. *)
Definition label_set : tset float64 float64 := mkSet 2 1 (ts_X (two_rows f1 f2)) f_nat ["x"%string].
Lemma label_ok : tset_ok label_set /\ finite_entries 53 1024 (ts_X label_set) 2 1 /\
  separable 53 1024 prec64_pos prec64_lt f_zero (ts_X label_set) 2 1 /\
  (forall i, (i < ts_n label_set)%nat -> ts_y label_set i = f_nat i /\ (i < 2)%nat) /\
  cl64_get_prior None 2 2 = repeat f_one 2 /\ Forall (fun a => nonneg_fin a /\ B2R a <= bpow radix2 900) (repeat f_one 2) /\ Bltb f_zero f0 = false.
Proof.
  destruct two_separable as (_ & _ & H1 & H2). split; [unfold tset_ok; simpl; repeat split; lia|]. split; [exact H1|]. split; [exact H2|].
  split; [intros i Hi; split; [reflexivity|exact Hi]|]. split; [|split; [|reflexivity]].
  - unfold cl64_get_prior. cbn [repeat]. assert (E : f_nat (Nat.max 1 (2 / 100)) = f_one) by (apply B2SF_inj; vm_compute; reflexivity). rewrite E. reflexivity.
  - destruct one_ok as [F1 E1]. assert (nonneg_fin f_one /\ B2R f_one <= b2 900).
    { split; [split; [exact F1|rewrite E1; lra]|]. rewrite E1. change 1 with (b2 0). apply b2_le. lia. }
    cbn [repeat]. apply Forall_cons; [exact H|apply Forall_cons; [exact H|constructor]].
Qed.
