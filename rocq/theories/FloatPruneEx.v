(** * FloatPruneEx: two float64 trees whose sibling leaves have different answers. *)
From Coq Require Import Reals Lra Permutation String.
From Flocq Require Import Core BinarySingleNaN.
From Verif Require Import Prelude Lists Tree Perp RealOps Gamma Clf Reg Api Spec PredictProofs OptProofs Exec
  ApiSpec ApiProofs ClfSpec ClfProofs RegSpec RegProofs Importance ImportanceSpec FloatFeat FloatProofs NumApi FloatReg FloatSum FloatNG FloatClf FloatClfSum Witness NumWitness FloatWitness
  FloatClfErr FloatOracle StableFit StableEx FloatRegFit FloatRegEx FloatImp FloatImpSpec FloatImpProofs FloatImpFit.
From Verif Require Import StructProofs PropLemmas NumLemmas FloatClfProofs FloatClfFit FloatImpEx FloatPrune.
From Verif Require Import Prelude Lists Tree Perp RealOps Gamma Reg Api Spec PruneProofs PredictProofs FitProofs OptSpec OptProofs OptFit OptNodes Exec   ApiSpec ApiProofs ClfSpec ClfProofs RegSpec RegProofs SplitFacts NodeFacts Routing FloatFeat FloatProofs NumApi FloatReg FloatSum FloatNG Witness NumWitness FloatWitness   FloatClfSum FloatClfErr FloatOracle StableFit StableEx FloatRegErr FloatRegScore FloatRegFit.
Local Open Scope R_scope.

(** A fitted tree of two rows has one split and one row on each side. *)
Lemma two_children {V S P} (left right : pdesc string V -> nat -> bool) (Q : list nat -> tree (pdesc string V) S P -> Prop) (t : tree (pdesc string V) S P) :
  (forall e i, left e i = true -> right e i = true -> False) ->
  (length (splits t) < 2)%nat -> counts_ok t -> i_n_data (info t) = 2%nat ->
  nodes_ok left right (fun rows u => i_n_data (info u) = length rows /\ Q rows u) [0; 1]%nat t ->
  (exists i, t = Leaf i) \/ exists i s a b i1 i2 r1 r2, t = Split i s a b (Leaf i1) (Leaf i2) /\ ((r1 = 0 /\ r2 = 1) \/ (r1 = 1 /\ r2 = 0))%nat /\ Q [r1] (Leaf i1) /\ Q [r2] (Leaf i2).
Proof.
  intros Hx Hl Hc Hn Hok. destruct t as [i|i s a b c1 c2]; [left; eauto|right].
  cbn [splits length] in Hl. rewrite app_length in Hl.
  destruct c1 as [i1|]; [|cbn [splits length] in Hl; lia]. destruct c2 as [i2|]; [|cbn [splits length] in Hl; lia].
  cbn [counts_ok info] in Hc, Hn. destruct Hc as (C1 & C2 & C3 & _). destruct Hok as (_ & ((N1 & Q1) & _) & ((N2 & Q2) & _)). cbn [info] in *.
  assert (E1 : length (filter (left s) [0; 1]%nat) = 1%nat) by lia. assert (E2 : length (filter (right s) [0; 1]%nat) = 1%nat) by lia.
  pose proof (Hx s 0%nat) as X0. pose proof (Hx s 1%nat) as X1. cbn [filter] in *.
  destruct (left s 0%nat), (left s 1%nat), (right s 0%nat), (right s 1%nat); cbn [length] in E1, E2; try lia; try (exfalso; auto; fail).
  - exists i, s, a, b, i1, i2, 0%nat, 1%nat. split; [reflexivity|]. split; [left; split; reflexivity|split; [exact Q1|exact Q2]].
  - exists i, s, a, b, i1, i2, 1%nat, 0%nat. split; [reflexivity|]. split; [right; split; reflexivity|split; [exact Q1|exact Q2]].
Qed.

Lemma f_sides_excl (X : nat -> nat -> float64) e i : f_left X e i = true -> f_right X e i = true -> False.
Proof. unfold f_left, f_right. intros H1 H2. exact (Bltb_Bleb_false _ _ _ _ H1 H2). Qed.
Notation two_lik := (cl64_lik f_sum log_cr gammaln_cr betaln_cr pow_cr f_half f_zero).
Notation pm_lik := (freg_lik f_sum log_cr gammaln_cr pow_cr two_pi f_half f_zero).

(** Two rows with the labels 0 and 1. *)
Lemma two_apart (srt : (nat -> float64) -> nat -> list nat) : sorts fleb srt -> exists t t',
  perp_fit (feat_f f0 srt) two_lik cl64_same false 0 (Some [f_nat 1; f_nat 1]) label_set = Ok t /\
  perp_fit (feat_f f0 srt) two_lik cl64_same true 0 (Some [f_nat 1; f_nat 1]) label_set = Ok t' /\
  splits t <> [] /\ siblings_differ class_differs t.
Proof.
  intros Hs. destruct (two_finite64 srt cl64_same Hs) as (t & E & Hne & _).
  destruct label_ok as (Hok & Hfin & Hsep & Hlab & _).
  destruct (perp_fit_total (feat_f f0 srt) two_lik cl64_same true 0 (Some [f_nat 1; f_nat 1]) label_set (fun key m => proj1 (Hs key m)) Hok) as (t' & E' & _).
  exists t, t'. split; [exact E|]. split; [exact E'|]. split; [exact Hne|].
  destruct (perp_fit_total (feat_f f0 srt) two_lik cl64_same false 0 (Some [f_nat 1; f_nat 1]) label_set (fun key m => proj1 (Hs key m)) Hok) as (t0 & E0 & HN & _ & HC & _).
  rewrite E in E0. injection E0 as <-.
  destruct (fit_splits (feat_f f0 srt) two_lik FloatImpFit.lt_trans cl64_same false 0 _ label_set t (fun key m => proj1 (Hs key m)) Hok E) as (_ & Hl & _).
  destruct one_ok as [F1 E1].
  assert (Hp : cl64_get_prior (Some [f_nat 1; f_nat 1]) (ts_n label_set) (ts_dim label_set) = repeat f_one 2).
  { cbn [cl64_get_prior repeat]. assert (f_nat 1 = f_one) as -> by (apply B2SF_inj; vm_compute; reflexivity). reflexivity. }
  assert (Hk : (0 < 2)%nat /\ (Z.of_nat 2 <= 2 ^ 20)%Z) by (split; [lia|vm_compute; discriminate]).
  pose proof (float_majority f_sum log_cr gammaln_cr betaln_cr pow_cr f_half f_zero f0 srt cl64_same label_set (fun i => i) 2 f_one
    (Some [f_nat 1; f_nat 1]) false 0%nat t eq_refl Hk Hp F1) as HM.
  assert (HM' : nodes_ok (f_left (ts_X label_set)) (f_right (ts_X label_set)) (node_majority (fun i => i) 2) [0; 1]%nat t).
  { apply HM; auto.
    - rewrite E1. split; [lra|]. change 1 with (b2 0). apply b2_le. lia.
    - vm_compute. discriminate. }
  clear HM.
  assert (HR : nodes_ok (f_left (ts_X label_set)) (f_right (ts_X label_set)) (fun rows u => i_n_data (info u) = List.length rows /\
    node_probabilities f_sum (fun i => i) 2 (repeat f_one 2) rows u) [0; 1]%nat t).
  { apply (float_probabilities f_sum log_cr gammaln_cr betaln_cr pow_cr f_half f_zero f0 srt cl64_same label_set (fun i => i) 2 (repeat f_one 2) (Some [f_nat 1; f_nat 1]) false 0%nat t); auto.
    - exact f_sum_sum.
    - apply label_ok.
    - vm_compute. reflexivity. }
  assert (HQ : nodes_ok (f_left (ts_X label_set)) (f_right (ts_X label_set)) (fun rows u => i_n_data (info u) = List.length rows /\ node_majority (fun i => i) 2 rows u) [0; 1]%nat t).
  { eapply nodes_ok_impl; [|eapply nodes_ok_and; [exact HR|exact HM']]. cbv beta. intros rows u. tauto. }
  clear HR HM'.
  destruct (two_children _ _ _ t (f_sides_excl (ts_X label_set)) Hl HC HN HQ) as [(i & ->)|(i & s & a & b & i1 & i2 & r1 & r2 & -> & Hr & Q1 & Q2)]; [exact I|].
  cbn [siblings_differ]. split; [|split; exact I]. unfold class_differs.
  unfold node_majority, cl64_predict_leaf in Q1, Q2. cbn [info] in Q1, Q2. destruct Q1 as [K1 M1]. destruct Q2 as [K2 M2]. intros Eq.
  rewrite <- Eq in *. set (c := f_argmax (i_post i1)) in *.
  assert (B1 : (r1 < 2)%nat) by lia. assert (B2 : (r2 < 2)%nat) by lia.
  destruct (M1 r1 B1) as [A1 _]. destruct (M2 r2 B2) as [A2 _]. unfold label_count in *. cbn [filter] in *. rewrite !Nat.eqb_refl in *.
  destruct (Nat.eqb_spec r1 c), (Nat.eqb_spec r2 c); cbn [List.length] in *; lia.
Qed.

(** Two rows with the targets -2 and 2. *)
Lemma pm_apart (srt : (nat -> float64) -> nat -> list nat) : sorts fleb srt -> exists t t',
  perp_fit (feat_f f0 srt) pm_lik freg_same false 0 None pm_set = Ok t /\
  perp_fit (feat_f f0 srt) pm_lik freg_same true 0 None pm_set = Ok t' /\
  splits t <> [] /\ siblings_differ numbers_differ t.
Proof.
  intros Hs. destruct (two_float srt Hs) as (H1 & H2 & H3 & H4 & H5). destruct pm_scores as (te & Ee & Hc & Hne & _).
  destruct pm_setting as [Hok K2 K3 K4 K5 K6 K7 _ _ _ _ _].
  destruct (perp_fit_total (feat_f f0 srt) pm_lik freg_same true 0 None pm_set (fun key m => proj1 (Hs key m)) Hok) as (t' & E' & _).
  destruct (perp_fit_total (feat_f f0 srt) pm_lik freg_same false 0 None pm_set (fun key m => proj1 (Hs key m)) Hok) as (t & E & HN & _ & HC & _).
  exists t, t'. split; [exact E|]. split; [exact E'|].
  destruct (fit_splits (feat_f f0 srt) pm_lik FloatImpFit.lt_trans freg_same false 0 _ pm_set t (fun key m => proj1 (Hs key m)) Hok E) as (_ & Hl & _).
  pose proof (reg_same_tree f_sum log_cr gammaln_cr pow_cr two_pi f_half f_zero 3 None 2 pm_el (b2 (-41)) (b2 (-52)) 1 f0 srt (argsort_by Rleb) pm_set H1 Hs H2 H3 H4 H5 pm_setting pm_h te freg_same t
    pm_real eq_refl eq_refl eq_refl eq_refl eq_refl Ee Hc E) as Hcopy.
  split.
  - intros E0. inversion Hcopy; subst; [apply Hne; reflexivity|discriminate E0].
  - pose proof (posteriors_close f_sum log_cr gammaln_cr pow_cr two_pi f_half f_zero f0 srt freg_same false 0%nat None pm_set pm_prior 2 t
      K3 K2 eq_refl K4 K5 K6 K7 eq_refl Hs Hok H4 H5 E) as HQ.
    change (seq 0 (ts_n pm_set)) with [0; 1]%nat in HQ.
    assert (HR : nodes_ok (f_left (ts_X pm_set)) (f_right (ts_X pm_set)) (fun rows u => i_n_data (info u) = List.length rows /\
      (is_finite (fn_mu (i_post (info u))) = true /\ Rabs (B2R (fn_mu (i_post (info u))) - ng_mu (ng_update 1 (ng_val pm_prior) (map (fun i => B2R (ts_y pm_set i)) rows))) <= / 1000)) [0; 1]%nat t).
    { eapply nodes_ok_impl; [|exact HQ]. cbv beta. intros rows u (_ & A1 & A2 & A3 & _). split; [exact A1|]. split; [exact A2|].
      eapply Rle_trans; [exact A3|]. change (b2 (-53)) with (/ 9007199254740992). change (ts_n pm_set) with 2%nat. simpl (INR 2). lra. }
    destruct (two_children _ _ _ t (f_sides_excl (ts_X pm_set)) Hl HC HN HR) as [(i & ->)|(i & s & a & b & i1 & i2 & r1 & r2 & -> & Hr & Q1 & Q2)]; [exact I|].
    cbn [siblings_differ]. split; [|split; exact I]. unfold numbers_differ. cbn [info] in Q1, Q2. destruct Q1 as [F1 M1]. destruct Q2 as [F2 M2].
    split; [exact F1|]. split; [exact F2|]. rewrite pm_prior_val in M1, M2. cbn [map] in M1, M2.
    destruct (int_ok (-2)) as [_ E1]; [reflexivity|]. destruct (int_ok 2) as [_ E2]; [reflexivity|].
    assert (Hy : forall r, B2R (ts_y pm_set r) = if Nat.eqb r 0 then -2 else 2).
    { intros r. cbn [pm_set ts_y]. destruct (Nat.eqb r 0); [rewrite E1|rewrite E2]; lra. }
    rewrite !Hy in M1, M2. assert (Hu : forall y, ng_mu (ng_update 1 (mkNG 0 1 (1 / 2) (1 / 2)) [y]) = y / 2).
    { intros y. unfold ng_update, mean. cbn [ng_mu ng_kappa List.length]. simpl. field. }
    rewrite !Hu in M1, M2. apply Rabs_le_inv in M1. apply Rabs_le_inv in M2.
    destruct Hr as [[-> ->]|[-> ->]]; cbn [Nat.eqb] in M1, M2; lra.
Qed.
