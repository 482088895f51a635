(** * NumWitness: concrete float64 and integer fits. *)
From Coq Require Import QArith Qreals Permutation Sorted.
From Coq Require String.
From Flocq Require Import Core BinarySingleNaN.
From Verif Require Import Prelude Lists Tree Perp RealOps Clf Reg Api Spec PredictProofs FitProofs OptProofs OptFit ClfSpec ClfProofs ApiSpec ApiProofs
  Exec Witness Routing Sim FloatFeat FloatProofs IntFeat IntProofs IntFit NumApi NumLemmas.
Local Open Scope nat_scope.

Section Strings.
Import String.
Open Scope string_scope.
(** Two rows of one column, classes 0 and 1. *)
Definition two_rows {A} (x0 x1 : A) : tset A R :=
  mkSet 2 1 (fun i _ => if Nat.eqb i 0 then x0 else x1) (fun i => INR (nth i [0;1] 0)) ["x"].
Definition ex_two : tset Z nat := zset [[0];[1]]%Z [0;1] ["x"].
End Strings.
Definition two_h : hyper (list R) := hyp (9 # 10) [1;1]%Z 0 false 0.

(** Any feature arithmetic that tells the two values apart splits between them. *)
Lemma two_rows_fit {A V} (F : feat A V) (x0 x1 : A) :
  f_argsort F (fun i => if Nat.eqb i 0 then x0 else x1) 2 = [0; 1] ->
  f_gap F x0 x1 = true -> f_gap F x1 x0 = true -> f_gap F x0 x0 = false -> f_gap F x1 x1 = false ->
  exists i0 nm v a b l1 l2,
    perp_fit F (clf_lik (h_pp two_h) (h_delta two_h)) clf_same (h_prune two_h) 0 (h_prior two_h) (two_rows x0 x1) =
      Ok (Split i0 (mkDesc 0 nm v) a b (Leaf l1) (Leaf l2)) /\
    (v = f_mid F x0 x1 \/ v = f_mid F x1 x0) /\
    i_n_data l1 = 1 /\ i_n_data l2 = 1 /\ i_post l1 = map IZR [2;1]%Z /\ i_post l2 = map IZR [1;2]%Z.
Proof.
  intros Hsort G01 G10 G00 G11.
  destruct (exec_fit (9 # 10) 0 0 false [1;1]%Z ex_two) as [v|e] eqn:E; [|vm_compute in E; discriminate].
  destruct (exec_run 2 (9 # 10) 0 0 false [1;1]%Z ex_two v) with (srt := argsort_by Rleb) as (Hs & t & Ht & Hr);
    auto using sort_R_sorts; try lia; [split; reflexivity|].
  assert (Ets : perp_fit (feat_R (IZR 0) (argsort_by Rleb)) (clf_lik (h_pp two_h) (h_delta two_h)) clf_same (h_prune two_h) 0 (h_prior two_h) (real_set ex_two) = Ok t).
  { unfold clf_fit, two_h, hyp in *. cbn [h_prec h_pp h_delta h_prune h_prior] in *. exact Ht. }
  assert (R01 : Rleb 0 1 = true) by (apply Rleb_true; lra).
  assert (R00 : Rleb 0 0 = true) by (apply Rleb_true; lra).
  assert (R10 : Rleb 1 0 = false) by (apply Rleb_false; lra).
  destruct (fit_sim (feat_R 0 (argsort_by Rleb)) F (clf_lik (h_pp two_h) (h_delta two_h)) clf_same (h_prune two_h) 0 (h_prior two_h)
     (real_set ex_two) (ts_X (two_rows x0 x1)) t) as (t' & Et' & Hsim); auto.
  - intros key n. apply sort_R_sorts.
  - apply Hs.
  - intros c Hc. simpl. rewrite Hsort. unfold argsort_by. simpl.
    assert (c = 0) as -> by (simpl in Hc; lia). simpl. rewrite R01. reflexivity.
  - intros c i j Hc Hi Hj. simpl in Hc, Hi, Hj. assert (c = 0) as -> by lia.
    destruct i as [|[|i]], j as [|[|j]]; try lia; simpl; rewrite ?G00, ?G01, ?G10, ?G11.
    + apply Rgtb_false. rewrite Rminus_0_r, Rabs_R0. lra.
    + apply Rgtb_true. rewrite Rabs_pos_eq; lra.
    + apply Rgtb_true. rewrite Rabs_left1; lra.
    + apply Rgtb_false. rewrite Rminus_diag_eq, Rabs_R0 by auto. lra.
  - vm_compute in E. injection E as <-.
    destruct t as [|i0 d0 a b c1 c2]; [discriminate|]. simpl in Hr. injection Hr as Ei0 Ed0 Hc1 Hc2.
    destruct c1 as [l1|]; [|discriminate]. destruct c2 as [l2|]; [|discriminate].
    simpl in Hc1, Hc2. injection Hc1 as El1. injection Hc2 as El2.
    inversion Hsim as [|i d nm v1 v1' a' b' e1 e2 e1' e2' r s Hd0 Hr0 Hs0 Hg Ev Ev' S1 S2]; subst.
    inversion S1; subst. inversion S2; subst.
    assert (d = 0) by (simpl in Hd0; lia). subst d.
    do 7 eexists. split; [exact Et'|]. split.
    + simpl in Hr0, Hs0. destruct r as [|[|r]], s as [|[|s]]; try lia; simpl in Hg |- *; auto.
      * apply Rgtb_true in Hg. rewrite Rminus_0_r, Rabs_R0 in Hg. lra.
      * apply Rgtb_true in Hg. rewrite Rminus_diag_eq, Rabs_R0 in Hg by auto. lra.
    + repeat split; reflexivity.
Qed.

(** ** Comparisons of concrete values *)
Lemma sort_two {A} (leb : A -> A -> bool) srt x0 x1 : sorts leb srt -> leb x1 x0 = false ->
  srt (fun i => if Nat.eqb i 0 then x0 else x1) 2 = [0; 1].
Proof.
  intros Hs H. destruct (Hs (fun i => if Nat.eqb i 0 then x0 else x1) 2) as [Hp Hst].
  set (l := srt _ 2) in *. pose proof (Permutation_length Hp) as Hl. simpl in Hl.
  destruct l as [|a [|b [|c l]]]; try discriminate. clear Hl.
  assert (Hab : [a; b] = [0; 1] \/ [a; b] = [1; 0]) by (apply Permutation_length_2_inv; symmetry; exact Hp).
  destruct Hab as [|E]; auto. injection E as -> ->. inversion Hst as [|? ? _ Hf]; subst. inversion Hf; subst. simpl in *. congruence.
Qed.

Definition f0 : float64 := B754_zero false.
Definition f1 : float64 := Bone.
(** The float64 number following 1. *)
Definition f1s : float64 := Bsucc f1.
(** 2^1023. *)
Definition fbig : float64 := Bldexp mode_NE f1 1023.
(** 1.5 * 2^1023. *)
Definition fbig2 : float64 := Bplus mode_NE fbig (Bldexp mode_NE f1 1022).
Definition f2 : float64 := Bplus mode_NE f1 f1.
Definition fnan : float64 := B754_nan.

Lemma leaf_class_0 : clf_predict_leaf (map IZR [2;1]%Z) = 0.
Proof. rewrite zargmax_R. reflexivity. Qed.
Lemma leaf_class_1 : clf_predict_leaf (map IZR [1;2]%Z) = 1.
Proof. rewrite zargmax_R. reflexivity. Qed.

(** Fits of two float rows. *)
Lemma float_two (x0 x1 : float64) srt : sorts fleb srt -> fleb x1 x0 = false ->
  gap_f f0 x0 x1 = true -> gap_f f0 x1 x0 = true -> gap_f f0 x0 x0 = false -> gap_f f0 x1 x1 = false ->
  B2SF (mid_f x1 x0) = B2SF (mid_f x0 x1) ->
  exists i0 nm a b l1 l2,
    fclf_fit srt f0 two_h (two_rows x0 x1) = Ok (Split i0 (mkDesc 0 nm (mid_f x0 x1)) a b (Leaf l1) (Leaf l2)) /\
    i_n_data l1 = 1 /\ i_n_data l2 = 1 /\ i_post l1 = map IZR [2;1]%Z /\ i_post l2 = map IZR [1;2]%Z.
Proof.
  intros Hs H G1 G2 G3 G4 Hm. apply B2SF_inj in Hm.
  destruct (two_rows_fit (feat_f f0 srt) x0 x1) as (i0 & nm & v & a & b & l1 & l2 & E & Hv & R1 & R2 & R3 & R4); auto.
  { apply (sort_two fleb); auto. }
  exists i0, nm, a, b, l1, l2. simpl in Hv. rewrite Hm in Hv. assert (v = mid_f x0 x1) as -> by tauto.
  split; auto.
Qed.

Lemma two_finite (x0 x1 : float64) : is_finite x0 = true -> is_finite x1 = true ->
  finite_entries 53 1024 (ts_X (two_rows x0 x1)) 2 1.
Proof. intros H0 H1 i d Hi Hd. simpl. destruct (Nat.eqb i 0); auto. Qed.

(** Neighbouring values: the split value equals the smaller one, which is then routed to the right. *)
Lemma neighbours_misrouted srt : sorts fleb srt -> exists t,
  finite_entries 53 1024 (ts_X (two_rows f1 f1s)) 2 1 /\
  fclf_fit srt f0 two_h (two_rows f1 f1s) = Ok t /\ map (fun l => (i_n_data l, clf_predict_leaf (i_post l))) (leaves t) = [(1, 0); (1, 1)] /\
  fclf_predict t (ts_X (two_rows f1 f1s)) 2 = [1; 1]%R /\
  ~ nodes_ok (f_left (ts_X (two_rows f1 f1s))) (f_right (ts_X (two_rows f1 f1s)))
      (fitted_on (clf_lik (h_pp two_h) (h_delta two_h)) (ts_y (two_rows f1 f1s))) (seq 0 2) t.
Proof.
  intros Hs. destruct (float_two f1 f1s srt Hs) as (i0 & nm & a & b & l1 & l2 & E & N1 & N2 & P1 & P2);
    [vm_compute; reflexivity..|].
  eexists. split; [apply two_finite; reflexivity|]. split; [exact E|]. split; [|split].
  - simpl. rewrite N1, N2, P1, P2, leaf_class_0, leaf_class_1. reflexivity.
  - unfold fclf_predict. rewrite predict_rows_spec.
    assert (Hr : forall i, i < 2 -> f_left (ts_X (two_rows f1 f1s)) (mkDesc 0 nm (mid_f f1 f1s)) i = false /\
                                  f_right (ts_X (two_rows f1 f1s)) (mkDesc 0 nm (mid_f f1 f1s)) i = true).
    { intros i Hi. destruct i as [|[|i]]; [split; vm_compute; reflexivity..|lia]. }
    cbn [seq map lookup]. destruct (Hr 0) as [-> ->]; [lia|]. destruct (Hr 1) as [-> ->]; [lia|].
    rewrite P2, leaf_class_1. reflexivity.
  - cbn [nodes_ok]. intros (_ & ((Hne & _) & _) & _). apply Hne. vm_compute. reflexivity.
Qed.

(** Large values: the sum overflows, the split value is infinite and every row goes left. *)
Lemma overflow_misrouted srt : sorts fleb srt -> exists t,
  finite_entries 53 1024 (ts_X (two_rows fbig fbig2)) 2 1 /\
  fclf_fit srt f0 two_h (two_rows fbig fbig2) = Ok t /\ map (fun l => (i_n_data l, clf_predict_leaf (i_post l))) (leaves t) = [(1, 0); (1, 1)] /\
  fclf_predict t (ts_X (two_rows fbig fbig2)) 2 = [0; 0]%R /\
  ~ nodes_ok (f_left (ts_X (two_rows fbig fbig2))) (f_right (ts_X (two_rows fbig fbig2)))
      (fitted_on (clf_lik (h_pp two_h) (h_delta two_h)) (ts_y (two_rows fbig fbig2))) (seq 0 2) t.
Proof.
  intros Hs. destruct (float_two fbig fbig2 srt Hs) as (i0 & nm & a & b & l1 & l2 & E & N1 & N2 & P1 & P2);
    [vm_compute; reflexivity..|].
  eexists. split; [apply two_finite; vm_compute; reflexivity|]. split; [exact E|]. split; [|split].
  - simpl. rewrite N1, N2, P1, P2, leaf_class_0, leaf_class_1. reflexivity.
  - unfold fclf_predict. rewrite predict_rows_spec.
    assert (Hr : forall i, i < 2 -> f_left (ts_X (two_rows fbig fbig2)) (mkDesc 0 nm (mid_f fbig fbig2)) i = true /\
                                  f_right (ts_X (two_rows fbig fbig2)) (mkDesc 0 nm (mid_f fbig fbig2)) i = false).
    { intros i Hi. destruct i as [|[|i]]; [split; vm_compute; reflexivity..|lia]. }
    cbn [seq map lookup]. destruct (Hr 0) as [-> ->]; [lia|]. destruct (Hr 1) as [-> ->]; [lia|].
    rewrite P1, leaf_class_0. reflexivity.
  - cbn [nodes_ok]. intros (_ & _ & ((Hne & _) & _)). apply Hne. vm_compute. reflexivity.
Qed.

(** A NaN query reaches no leaf. *)
Lemma nan_query srt : sorts fleb srt -> exists t,
  finite_entries 53 1024 (ts_X (two_rows f1 f2)) 2 1 /\
  fclf_fit srt f0 two_h (two_rows f1 f2) = Ok t /\ length (leaves t) = 2 /\
  fclf_predict_proba t (fun _ _ => fnan) 1 = [None] /\ fclf_predict t (fun _ _ => fnan) 1 = [0%R].
Proof.
  intros Hs. destruct (float_two f1 f2 srt Hs) as (i0 & nm & a & b & l1 & l2 & E & N1 & N2 & P1 & P2);
    [vm_compute; reflexivity..|].
  eexists. split; [apply two_finite; vm_compute; reflexivity|]. split; [exact E|]. split; [reflexivity|].
  unfold fclf_predict, fclf_predict_proba. rewrite !predict_rows_spec. cbn [seq map lookup].
  assert (Hl : f_left (fun _ _ => fnan) (mkDesc 0 nm (mid_f f1 f2)) 0 = false) by (vm_compute; reflexivity).
  assert (Hr : f_right (fun _ _ => fnan) (mkDesc 0 nm (mid_f f1 f2)) 0 = false) by (vm_compute; reflexivity).
  rewrite Hl, Hr. auto.
Qed.

(** uint8: 100 + 200 wraps to 44, so the split value is 22 and every row goes right. *)
Lemma uint8_misrouted srt : sorts Z.leb srt -> exists t,
  entries_in uint8 (ts_X (two_rows 100 200)%Z) 2 1 /\
  iclf_fit uint8 srt two_h (two_rows 100 200)%Z = Ok t /\ map (fun l => (i_n_data l, clf_predict_leaf (i_post l))) (leaves t) = [(1, 0); (1, 1)] /\
  iclf_predict t (ts_X (two_rows 100 200)%Z) 2 = [1; 1]%R /\
  ~ nodes_ok (i_left (ts_X (two_rows 100 200)%Z)) (i_right (ts_X (two_rows 100 200)%Z))
      (fitted_on (clf_lik (h_pp two_h) (h_delta two_h)) (ts_y (two_rows 100 200)%Z)) (seq 0 2) t.
Proof.
  intros Hs. destruct (two_rows_fit (feat_i uint8 (h_prec two_h) srt) 100%Z 200%Z) as (i0 & nm & v & a & b & l1 & l2 & E & Hv & N1 & N2 & P1 & P2).
  { apply (sort_two Z.leb); auto. }
  1-4: cbn [feat_i f_gap]; first [apply Rgtb_true; vm_compute absdiff_i; simpl; lra|apply Rgtb_false; vm_compute absdiff_i; simpl; lra].
  assert (v = 44%Z) as -> by (destruct Hv as [->| ->]; vm_compute; reflexivity). clear Hv.
  eexists. split.
  { intros i d Hi Hd. simpl. destruct (Nat.eqb i 0); unfold in_range; vm_compute; split; congruence. }
  split; [exact E|]. split; [|split].
  - simpl. rewrite N1, N2, P1, P2, leaf_class_0, leaf_class_1. reflexivity.
  - unfold iclf_predict. rewrite predict_rows_spec.
    assert (Hr : forall i, i < 2 -> i_left (ts_X (two_rows 100 200)%Z) (mkDesc 0 nm 44%Z) i = false /\
                                  i_right (ts_X (two_rows 100 200)%Z) (mkDesc 0 nm 44%Z) i = true).
    { intros i Hi. destruct i as [|[|i]]; [split; vm_compute; reflexivity..|lia]. }
    cbn [seq map lookup]. destruct (Hr 0) as [-> ->]; [lia|]. destruct (Hr 1) as [-> ->]; [lia|].
    rewrite P2, leaf_class_1. reflexivity.
  - cbn [nodes_ok]. intros (_ & ((Hne & _) & _) & _). apply Hne. vm_compute. reflexivity.
Qed.

(** ** Statements in the form of the properties *)
Lemma two_ok {A} (x0 x1 : A) : tset_ok (two_rows x0 x1).
Proof. unfold tset_ok. simpl. repeat split; lia. Qed.
Lemma two_usable : tset_ok (two_rows f1 f2) /\ finite_entries 53 1024 (ts_X (two_rows f1 f2)) 2 1 /\ is_nan f2 = false.
Proof. split; [apply two_ok|]. split; [apply two_finite; vm_compute; reflexivity|reflexivity]. Qed.
Lemma uint8_range : in_range uint8 100 /\ in_range uint8 200 /\ ~ in_range uint8 (100 + 200).
Proof. unfold in_range, i_lo, i_hi. simpl. lia. Qed.
Lemma uint8_usable : tset_ok (two_rows 10 20)%Z /\ entries_in uint8 (ts_X (two_rows 10 20)%Z) 2 1 /\ sums_in uint8 0 (ts_X (two_rows 10 20)%Z) 2 1.
Proof.
  split; [apply two_ok|]. split.
  - intros i d Hi Hd. simpl. destruct (Nat.eqb i 0); unfold in_range; vm_compute; split; congruence.
  - intros i j d Hi Hj Hd _ _. simpl. destruct (Nat.eqb i 0), (Nat.eqb j 0); unfold in_range; vm_compute; split; congruence.
Qed.
Lemma int_routed {Y P S} ty prec srt (L : lik Y P S) same do_prune lvl pa (d : tset Z Y) t :
  (0 < it_bits ty)%Z -> (0 <= prec)%R -> sorts Z.leb srt -> tset_ok d ->
  entries_in ty (ts_X d) (ts_n d) (ts_dim d) -> sums_in ty prec (ts_X d) (ts_n d) (ts_dim d) ->
  perp_fit (feat_i ty prec srt) L same do_prune lvl pa d = Ok t ->
  nodes_ok (i_left (ts_X d)) (i_right (ts_X d)) (fitted_on L (ts_y d)) (seq 0 (ts_n d)) t.
Proof.
  intros Hb Hp Hs Hd He Hsum E.
  exact (fit_routed (feat_i ty prec srt) L Z.leb Z.leb_refl same do_prune lvl pa d t Hs Hd (int_threshold ty prec srt _ _ _ Hb Hp Hsum) E).
Qed.
Lemma mid64 (a b : float64) : is_finite a = true -> is_finite b = true ->
  is_finite (Bplus mode_NE a b) = true -> (B2R a <= B2R b)%R ->
  is_finite (mid_f a b) = true /\ (B2R a <= B2R (mid_f a b) <= B2R b)%R.
Proof. intros Ha Hb Hs Hab. destruct (mid_correct 53 1024 _ _ ltac:(lia) a b Ha Hb Hs Hab) as (H1 & _ & H2). auto. Qed.
Lemma float_routed {Y P S} p srt (L : lik Y P S) same do_prune lvl pa (d : tset float64 Y) t :
  Bltb p f0 = false -> sorts fleb srt -> tset_ok d ->
  finite_entries 53 1024 (ts_X d) (ts_n d) (ts_dim d) -> separable 53 1024 prec64_pos prec64_lt p (ts_X d) (ts_n d) (ts_dim d) ->
  perp_fit (feat_f p srt) L same do_prune lvl pa d = Ok t ->
  nodes_ok (f_left (ts_X d)) (f_right (ts_X d)) (fitted_on L (ts_y d)) (seq 0 (ts_n d)) t.
Proof.
  intros Hp Hs Hd Hfin Hsep E.
  exact (fit_routed (feat_f p srt) L fleb (fleb_refl 53 1024) same do_prune lvl pa d t Hs Hd (float_threshold 53 1024 _ _ ltac:(lia) p srt _ _ _ Hp Hfin Hsep) E).
Qed.
Lemma two_separable : tset_ok (two_rows f1 f2) /\ Bltb f0 f0 = false /\ finite_entries 53 1024 (ts_X (two_rows f1 f2)) 2 1 /\
  separable 53 1024 prec64_pos prec64_lt f0 (ts_X (two_rows f1 f2)) 2 1.
Proof.
  split; [apply two_ok|]. split; [reflexivity|]. split; [apply two_usable|].
  intros i j d Hi Hj Hd Hlt _. simpl in Hlt |- *.
  destruct (Nat.eqb i 0), (Nat.eqb j 0); try (vm_compute in Hlt; discriminate).
  split; [vm_compute; reflexivity|]. exists (mid_f f1 f2). split; vm_compute; reflexivity.
Qed.
Lemma precision64 (p : float64) k X n n_dim : finite_entries 53 1024 X n n_dim ->
  (-1021 <= k)%Z -> (k + 1 < 1024)%Z -> is_finite p = true -> (bpow radix2 (k - 53) <= B2R p)%R ->
  (forall i d, i < n -> d < n_dim -> (Rabs (B2R (X i d)) < bpow radix2 k)%R) ->
  separable 53 1024 prec64_pos prec64_lt p X n n_dim.
Proof. intros. eapply precision_separable with (k := k); auto; try lia; unfold SpecFloat.emin; lia. Qed.
Lemma two_precision : is_finite f1 = true /\ (bpow radix2 (2 - 53) <= B2R f1)%R /\
  gap_f f1 (Bopp f1) f1 = true /\
  (forall i d, i < 2 -> d < 1 -> (Rabs (B2R (ts_X (two_rows (Bopp f1) f1) i d)) < bpow radix2 2)%R).
Proof.
  assert (E : B2R f1 = 1%R) by apply Bone_correct.
  split; [reflexivity|]. split; [rewrite E; change 1%R with (bpow radix2 0); apply bpow_le; lia|].
  split; [vm_compute; reflexivity|].
  intros i d _ _. cbn [two_rows ts_X]. change (bpow radix2 2) with 4%R. destruct (Nat.eqb i 0); [rewrite B2R_Bopp|]; rewrite ?Rabs_Ropp, E, Rabs_R1; lra.
Qed.
Lemma int16_usable : tset_ok same_rows /\ targets_small int16 12 same_rows.
Proof.
  split; [unfold tset_ok; simpl; repeat split; lia|]. unfold targets_small. simpl.
  repeat split; try reflexivity; try lia; intros; simpl; lia.
Qed.
