(** * FloatRegProofs: float64 regression on targets far from zero (C81). *)
From Coq Require Import Reals Lra Permutation String.
From Flocq Require Import Core BinarySingleNaN.
From Verif Require Import Prelude Tree Perp RealOps Reg Api Spec OptSpec OptProofs RegSpec RegProofs ApiSpec Equiv Witness RegWitness PropCases FloatFeat FloatReg.
Local Open Scope nat_scope.

(** ** A node whose own evidence is not beaten by anything is a leaf *)
Lemma scan_stuck {A V Y P S} (F : feat A V) (L : lik Y P S) X y lvl prior idxs ns : (forall s, l_gt L s ns = false) ->
  scan F L X y lvl prior idxs ns = mkBest ns (-1) (-1).
Proof.
  intros H. unfold scan. generalize (length idxs) at 1 as nd. intros nd.
  induction (combine (seq 0 (length idxs)) idxs) as [|[dim row] l IH]; [reflexivity|]. cbn [fold_left].
  replace (scan_dim F L X y lvl prior nd (mkBest ns (-1) (-1)) (dim, row)) with (mkBest ns (-1) (-1)); [exact IH|].
  unfold scan_dim. destruct (split_positions _ _) as [|k ks]; [reflexivity|].
  destruct (nth_error (l_split L _ _ _ _ _) _); [|reflexivity]. destruct (nth_error (k :: ks) _); [|reflexivity].
  cbn [b_score]. rewrite H. reflexivity.
Qed.
Lemma pfit_stuck {A V Y P S NM} (F : feat A V) (L : lik Y P S) X y (names : list NM) fuel lvl pa row idxs :
  (forall s, l_gt L s (l_no_split L lvl (l_prior L pa (length row) (length (row :: idxs))) (gather y row)) = false) ->
  exists i, pfit F L X y names (Datatypes.S fuel) lvl pa (row :: idxs) = Ok (Leaf i).
Proof. intros H. cbn [pfit]. rewrite scan_stuck by exact H. cbn [b_idx Z.ltb Z.compare]. eexists. reflexivity. Qed.

(** ** NaN is contagious and never greater *)
Lemma nan_add_r a b : is_nan b = true -> is_nan (f_add a b) = true.
Proof. destruct b; try discriminate. destruct a as [| | |]; reflexivity. Qed.
Lemma nan_add_l a b : is_nan a = true -> is_nan (f_add a b) = true.
Proof. destruct a; try discriminate. destruct b as [| | |]; reflexivity. Qed.
Lemma nan_sub_r a b : is_nan b = true -> is_nan (f_sub a b) = true.
Proof. destruct b; try discriminate. destruct a as [| | |]; reflexivity. Qed.
Lemma nan_sub_l a b : is_nan a = true -> is_nan (f_sub a b) = true.
Proof. destruct a; try discriminate. destruct b as [| | |]; reflexivity. Qed.
Lemma nan_mul_r a b : is_nan b = true -> is_nan (f_mul a b) = true.
Proof. destruct b; try discriminate. destruct a as [| | |]; reflexivity. Qed.
Lemma nan_below (a s : float64) : is_nan a = true -> Bltb a s = false.
Proof. destruct a; try discriminate. destruct s; reflexivity. Qed.

Lemma log_p_nan flog fgammaln f2pi prior an bn kn n : is_nan (flog bn) = true -> is_nan (freg_log_p_data flog fgammaln f2pi prior an bn kn n) = true.
Proof.
  intros H. unfold freg_log_p_data. apply nan_sub_l, nan_add_l, nan_sub_r, nan_mul_r. exact H.
Qed.
Lemma no_split_nan fsum flog fgammaln fpow f2pi pp lvl prior ys : (forall x, Bltb x f_zero = true -> is_nan (flog x) = true) ->
  Bltb (fn_beta (freg_posterior fsum f_one prior ys)) f_zero = true ->
  is_nan (freg_no_split fsum flog fgammaln fpow f2pi pp lvl prior ys) = true.
Proof. intros Hl H. unfold freg_no_split. apply nan_add_r, log_p_nan, Hl. exact H. Qed.

(** ** Four rows *)
Definition c10 : Z := 10000000000.
Definition far_X (i f : nat) : float64 := if i <? 2 then f_zero else f_one.
Definition far_y (i : nat) : float64 := if i <? 2 then f_int c10 else f_int (c10 + 3).
Definition far_set : tset float64 float64 := mkSet 4 1 far_X far_y ["x"%string].
Definition far_prior : fng := mkFNG (f_int c10) f_one f_one f_one.
(** The same numbers, as real numbers. *)
Definition far_setR : tset R R := mkSet 4 1 (fun i f => B2R (far_X i f)) (fun i => B2R (far_y i)) ["x"%string].
Definition far_priorR : ng := mkNG (B2R (fn_mu far_prior)) (B2R (fn_kappa far_prior)) (B2R (fn_alpha far_prior)) (B2R (fn_beta far_prior)).
Definition far_h (prn : bool) : hyper ng := mkHyper (9 / 10) (Some far_priorR) 0 prn 0.

(** All lists of four row numbers. *)
Definition quads : list (list nat) :=
  flat_map (fun a => flat_map (fun b => flat_map (fun c => map (fun d => [a; b; c; d]) (seq 0 4)) (seq 0 4)) (seq 0 4)) (seq 0 4).
Fixpoint distinctb (l : list nat) : bool := match l with [] => true | a :: t => negb (existsb (Nat.eqb a) t) && distinctb t end.
Lemma quads_perm l : Permutation l [0; 1; 2; 3] -> In l quads /\ distinctb l = true.
Proof.
  intros H. assert (Hl := Permutation_length H). assert (Hn : NoDup l) by (eapply Permutation_NoDup; [apply Permutation_sym; exact H|repeat constructor; simpl; intuition lia]).
  assert (Hi : forall x, In x l -> In x (seq 0 4)) by (intros x Hx; apply (Permutation_in _ H) in Hx; exact Hx).
  split.
  - destruct l as [|a [|b [|c [|d [|e l]]]]]; try discriminate. unfold quads.
    apply in_flat_map. exists a. split; [apply Hi; simpl; auto|]. apply in_flat_map. exists b. split; [apply Hi; simpl; auto|].
    apply in_flat_map. exists c. split; [apply Hi; simpl; auto|]. apply (in_map (fun d => [a; b; c; d])). apply Hi. simpl. auto.
  - clear -Hn. induction Hn as [|a l Ha Hn IH]; [reflexivity|]. cbn [distinctb]. rewrite IH, andb_true_r. apply negb_true_iff.
    destruct (existsb (Nat.eqb a) l) eqn:E; auto. exfalso. apply Ha. apply existsb_exists in E as (b & Hb & E). apply Nat.eqb_eq in E. subst b. exact Hb.
Qed.
Definition beta_negative (l : list nat) : bool := Bltb (fn_beta (freg_posterior f_sum f_one far_prior (gather far_y l))) f_zero.
Lemma quads_negative : forallb (fun l => negb (distinctb l) || beta_negative l) quads = true.
Proof. vm_compute. reflexivity. Qed.
Lemma far_negative l : Permutation l [0; 1; 2; 3] -> beta_negative l = true.
Proof.
  intros H. destruct (quads_perm l H) as [H1 H2]. pose proof quads_negative as Hq. rewrite forallb_forall in Hq. specialize (Hq l H1).
  rewrite H2 in Hq. exact Hq.
Qed.

Lemma far_leaf fsum flog fgammaln fpow f2pi pp delta srt same prn : permutes srt -> (forall l, length l < 8 -> fsum l = f_sum l) ->
  (forall x, Bltb x f_zero = true -> is_nan (flog x) = true) ->
  exists i, perp_fit (feat_f f_zero srt) (freg_lik fsum flog fgammaln fpow f2pi pp delta) same prn 0 (Some far_prior) far_set = Ok (Leaf i).
Proof.
  intros Hp Hsum Hl. unfold perp_fit, pfit_root. cbn [far_set ts_X ts_y ts_names ts_n ts_dim].
  unfold root_indices. cbn [seq map feat_f f_argsort].
  set (row := map (store_index 4) (srt (fun i => far_X i 0) 4)).
  assert (Hr : Permutation row [0; 1; 2; 3]).
  { unfold row. eapply perm_trans; [apply Permutation_map, Hp|]. vm_compute. apply Permutation_refl. }
  destruct (pfit_stuck (feat_f f_zero srt) (freg_lik fsum flog fgammaln fpow f2pi pp delta) far_X far_y ["x"%string] 4 0 (Some far_prior) row []) as (i & E).
  { intros s. cbn [freg_lik l_gt l_no_split l_prior freg_get_prior]. apply nan_below. apply no_split_nan; [exact Hl|].
    assert (Hlen : length (gather far_y row) < 8) by (unfold gather; rewrite map_length, (Permutation_length Hr); simpl; lia).
    assert (E : freg_posterior fsum f_one far_prior (gather far_y row) = freg_posterior f_sum f_one far_prior (gather far_y row)).
    { unfold freg_posterior. rewrite !Hsum by (rewrite ?map_length; exact Hlen). reflexivity. }
    rewrite E. exact (far_negative row Hr). }
  exists i. rewrite E. destruct prn; reflexivity.
Qed.

(** ** Exact arithmetic splits *)
Lemma skeleton_height {D S P} (t : tree D S P) : height (skeleton t) = height t.
Proof. induction t as [i|i sd x x2 c1 IH1 c2 IH2]; cbn [skeleton height]; [reflexivity|]. rewrite IH1, IH2. reflexivity. Qed.
Lemma skeleton_leaves {D S P} (t : tree D S P) : length (leaves (skeleton t)) = length (leaves t).
Proof. induction t as [i|i sd x x2 c1 IH1 c2 IH2]; cbn [skeleton leaves]; [reflexivity|]. rewrite !app_length, IH1, IH2. reflexivity. Qed.
Lemma B2R_int10 : B2R (f_int c10) = 10000000000%R /\ B2R (f_int (c10 + 3)) = 10000000003%R.
Proof.
  split; rewrite <- SF2R_B2SF.
  - replace (B2SF (f_int c10)) with (SpecFloat.S754_finite false 5242880000000000 (-19)) by (vm_compute; reflexivity).
    unfold SF2R, F2R. cbn [cond_Zopp Fnum Fexp]. replace (bpow radix2 (-19)) with (/ 524288)%R by (simpl; lra). lra.
  - replace (B2SF (f_int (c10 + 3))) with (SpecFloat.S754_finite false 5242880001572864 (-19)) by (vm_compute; reflexivity).
    unfold SF2R, F2R. cbn [cond_Zopp Fnum Fexp]. replace (bpow radix2 (-19)) with (/ 524288)%R by (simpl; lra). lra.
Qed.
Lemma far_exact prn : reg_setting sort_R far_priorR (far_h prn) far_setR /\
  exists t, reg_fit sort_R (far_h prn) far_setR = Ok t /\ height t = 1 /\ length (leaves t) = 2.
Proof.
  assert (Ep : far_priorR = scale_ng 1 10000000000 p1).
  { unfold far_priorR, scale_ng, p1, affine, far_prior. cbn [fn_mu fn_kappa fn_alpha fn_beta ng_mu ng_kappa ng_alpha ng_beta].
    rewrite (proj1 B2R_int10). unfold f_one. rewrite Bone_correct. f_equal; lra. }
  assert (Es : far_setR = map_target (affine 1 10000000000) step_set).
  { unfold far_setR, map_target, step_set, two_set. cbn [ts_n ts_dim ts_X ts_y ts_names]. f_equal.
    - apply FunctionalExtensionality.functional_extensionality. intros i. apply FunctionalExtensionality.functional_extensionality. intros f.
      unfold far_X, two_X. destruct (i <? 2); [reflexivity|]. apply Bone_correct.
    - apply FunctionalExtensionality.functional_extensionality. intros i. unfold far_y, affine. destruct (i <? 2).
      + rewrite (proj1 B2R_int10). lra.
      + rewrite (proj2 B2R_int10). lra. }
  destruct (step_fit prn) as (Hs & t & Ht & Hh & Hl).
  destruct (reg_fit_target_scale 1 10000000000 ltac:(lra) sort_R sort_R p1 (half_h prn) (far_h prn) step_set t) as (t' & Ht' & Hsk & _); auto using sort_R_sorts.
  { unfold far_h. rewrite Ep. reflexivity. }
  rewrite <- Es in Ht'. split.
  - destruct Hs as (H1 & H2 & (H3 & H4 & H5) & H6 & H7). split; [exact H1|]. split; [exact H2|]. split; [exact (conj H3 (conj H4 H5))|].
    split; [reflexivity|]. rewrite Ep. split; [|split]; simpl; lra.
  - exists t'. split; [exact Ht'|]. rewrite <- (skeleton_height t'), <- (skeleton_leaves t'), Hsk, skeleton_height, skeleton_leaves. auto.
Qed.
