(** * NumLemmas: NaN queries, and integer targets whose squares wrap around. *)
From Coq Require Import Permutation Sorted.
From Coq Require String.
From Flocq Require Import Core BinarySingleNaN.
From Verif Require Import Prelude Lists Tree Perp RealOps Clf Reg Api Spec PredictProofs FitProofs OptProofs OptFit ClfSpec ClfProofs ApiSpec ApiProofs
  Routing Sim FloatFeat FloatProofs IntFeat IntProofs IntFit NumApi.
Local Open Scope nat_scope.

(** ** NaN queries *)
Section Mid.
Variables prec emax : Z.
Context (prec_gt_0_ : Prec_gt_0 prec) (prec_lt_emax_ : Prec_lt_emax prec emax).
Notation fl := (binary_float prec emax).
Hypothesis Hemax : (2 < emax)%Z.

Lemma plus_not_nan (a b : fl) : is_finite a = true -> is_finite b = true -> is_nan (Bplus mode_NE a b) = false.
Proof.
  intros Ha Hb. generalize (Bplus_correct prec emax _ _ mode_NE a b Ha Hb). destruct (Rlt_bool _ _).
  - intros (_ & H & _). destruct (Bplus mode_NE a b); auto; discriminate.
  - intros (H & _). destruct (Bplus mode_NE a b); auto. simpl in H. destruct (Bsign a); discriminate.
Qed.
Lemma mid_not_nan (a b : fl) : is_finite a = true -> is_finite b = true -> is_nan (mid_f a b) = false.
Proof.
  intros Ha Hb. pose proof (plus_not_nan a b Ha Hb) as Hn. unfold mid_f.
  destruct (half_correct prec emax _ _) as [Hh Hf]; auto.
  destruct (Bplus mode_NE a b) as [s|s| |s m e H] eqn:E; try discriminate.
  1,3: generalize (Bmult_correct prec emax _ _ mode_NE half_f (Bplus mode_NE a b)); rewrite E; destruct (Rlt_bool _ _);
    [intros (_ & H' & _)|intros H']; rewrite ?Hf in H';
    destruct (Bmult mode_NE half_f _); auto; simpl in H'; try discriminate;
    unfold binary_overflow in H'; simpl in H'; destruct (xorb _ _); discriminate.
  destruct half_f as [s'|s'| |s' m' e' H']; try discriminate; auto. simpl in Hh. lra.
Qed.

Lemma Bleb_negb (x v : fl) : is_nan x = false -> is_nan v = false -> Bleb v x = negb (Bltb x v).
Proof.
  intros Hx Hv. unfold Bleb, Bltb, SpecFloat.SFleb, SpecFloat.SFltb.
  change (SpecFloat.SFcompare (B2SF v) (B2SF x)) with (Bcompare v x). change (SpecFloat.SFcompare (B2SF x) (B2SF v)) with (Bcompare x v).
  rewrite (Bcompare_swap _ _ v x). destruct (Bcompare v x) as [[]|] eqn:E; auto. exfalso.
  unfold Bcompare, SpecFloat.SFcompare in E. destruct x as [[]|[]| |[]], v as [[]|[]| |[]]; simpl in *; try discriminate;
    repeat match type of E with context [match ?c with _ => _ end] => destruct c end; discriminate.
Qed.
Lemma Bltb_Bleb_false (x v : fl) : Bltb x v = true -> Bleb v x = true -> False.
Proof.
  unfold Bleb, Bltb, SpecFloat.SFleb, SpecFloat.SFltb.
  change (SpecFloat.SFcompare (B2SF v) (B2SF x)) with (Bcompare v x). change (SpecFloat.SFcompare (B2SF x) (B2SF v)) with (Bcompare x v).
  rewrite (Bcompare_swap _ _ v x). destruct (Bcompare v x) as [[]|]; discriminate.
Qed.
End Mid.

(** Every split value of a fitted tree is computed from two training values of its column. *)
Lemma sim_thresholds {A V A' V' P S NM} (F : feat A V) (F' : feat A' V') X X' n n_dim
    (t : tree (pdesc NM V) S P) t' : sim F F' X X' n n_dim t t' ->
  forall d, In d (map (fun s => fst (fst s)) (splits t)) ->
    exists r s, r < n /\ s < n /\ sd_dim d < n_dim /\ sd_val d = f_mid F (X r (sd_dim d)) (X s (sd_dim d)).
Proof.
  induction 1 as [i|i d nm v v' a b c1 c2 c1' c2' r s Hd Hr Hs Hg Hv Hv' H1 IH1 H2 IH2]; intros e He; [destruct He|].
  simpl in He. rewrite map_app, in_app_iff in He. destruct He as [<-|[He|He]]; auto.
  exists r, s. simpl. auto.
Qed.

Theorem fit_thresholds {A V Y P S} (F : feat A V) (L : lik Y P S) same do_prune lvl pa (d : tset A Y) t :
  permutes (f_argsort F) -> tset_ok d -> perp_fit F L same do_prune lvl pa d = Ok t ->
  forall e, In e (map (fun s => fst (fst s)) (splits t)) ->
    exists r s, r < ts_n d /\ s < ts_n d /\ sd_dim e < ts_dim d /\
      sd_val e = f_mid F (ts_X d r (sd_dim e)) (ts_X d s (sd_dim e)).
Proof.
  intros Hp Hd E. destruct (fit_sim F F L same do_prune lvl pa d (ts_X d) t) as (t' & _ & Hs); auto.
  eapply sim_thresholds; eauto.
Qed.

Lemma float_reaches srt p h (d : tset float64 R) t : permutes srt -> tset_ok d ->
  finite_entries 53 1024 (ts_X d) (ts_n d) (ts_dim d) -> fclf_fit srt p h d = Ok t ->
  forall (Xq : nat -> nat -> float64) q, (forall c, c < ts_dim d -> is_nan (Xq q c) = false) ->
  forall O (val : ninfo (list R) -> O),
  exists i, In i (leaves t) /\ reaches (fun e => f_left Xq e q = true) (fun e => f_right Xq e q = true) t i /\
    lookup (f_left Xq) (f_right Xq) val t q = Some (val i).
Proof.
  intros Hp Hd Hfin E Xq q Hq O val.
  destruct (lookup_reaches (f_left Xq) (f_right Xq) val t q) as (i & Hr & Hl).
  - intros e He. destruct (fit_thresholds (feat_f p srt) _ _ _ _ _ d t Hp Hd E e He) as (r & s & Hrn & Hsn & Hc & Hv).
    unfold f_left, f_right. apply Bleb_negb; auto. rewrite Hv. simpl. apply mid_not_nan; auto. lia.
  - exists i. split; auto. eapply reaches_in_leaves; eauto.
Qed.

Theorem float_predict_leaf srt p h (d : tset float64 R) t : permutes srt -> tset_ok d ->
  finite_entries 53 1024 (ts_X d) (ts_n d) (ts_dim d) -> fclf_fit srt p h d = Ok t ->
  forall (Xq : nat -> nat -> float64) m, (forall q c, q < m -> c < ts_dim d -> is_nan (Xq q c) = false) ->
  forall q, q < m -> exists i, In i (leaves t) /\
    reaches (fun e => f_left Xq e q = true) (fun e => f_right Xq e q = true) t i /\
    nth_error (fclf_predict t Xq m) q = Some (INR (clf_predict_leaf (i_post i))) /\
    nth_error (fclf_predict_proba t Xq m) q = Some (Some (clf_posterior_mean (i_post i))).
Proof.
  intros Hp Hd Hfin E Xq m Hq q Hqm.
  destruct (float_reaches srt p h d t Hp Hd Hfin E Xq q (fun c => Hq q c Hqm) _ (fun i => i)) as (i & Hi & Hr & Hl).
  assert (Hval : forall O (val : ninfo (list R) -> O), lookup (f_left Xq) (f_right Xq) val t q = Some (val i)).
  { intros O val. destruct (float_reaches srt p h d t Hp Hd Hfin E Xq q (fun c => Hq q c Hqm) _ val) as (j & Hj & Hrj & ->).
    destruct (float_reaches srt p h d t Hp Hd Hfin E Xq q (fun c => Hq q c Hqm) _ (fun i => i)) as (j' & _ & Hr' & Hl').
    rewrite Hl in Hl'. injection Hl' as ->. f_equal. f_equal.
    eapply reaches_unique; [|exact Hrj|exact Hr']. intros e. unfold f_left, f_right.
    intros H1 H2. apply (Bltb_Bleb_false _ _ _ _ H1 H2). }
  exists i. split; auto. split; auto. unfold fclf_predict, fclf_predict_proba. rewrite !predict_rows_spec, !nth_error_map, !nth_error_seq.
  apply Nat.ltb_lt in Hqm as Hb. rewrite Hb. simpl. rewrite !Hval. auto.
Qed.

(** A query with a NaN at the root's split gets the initial value. *)
Lemma nan_falls_through {S} (i : ninfo (list R)) d (a b : S) c1 c2 (Xq : nat -> nat -> float64) m q :
  q < m -> is_nan (Xq q (sd_dim d)) = true ->
  nth_error (fclf_predict (Split i d a b c1 c2) Xq m) q = Some 0%R /\
  nth_error (fclf_predict_proba (Split i d a b c1 c2) Xq m) q = Some None.
Proof.
  intros Hq Hn. unfold fclf_predict, fclf_predict_proba. rewrite !predict_rows_spec, !nth_error_map, !nth_error_seq.
  apply Nat.ltb_lt in Hq as Hb. rewrite Hb. simpl.
  assert (H1 : f_left Xq d q = false).
  { unfold f_left. destruct (Xq q (sd_dim d)); try discriminate. destruct (sd_val d) as [[]|[]| |[]]; reflexivity. }
  assert (H2 : f_right Xq d q = false).
  { unfold f_right. destruct (Xq q (sd_dim d)); try discriminate. destruct (sd_val d) as [[]|[]| |[]]; reflexivity. }
  rewrite H1, H2. auto.
Qed.

(** ** Integer targets *)
Section Strings.
Import String.
Open Scope string_scope.
(** Two equal rows with target 12. *)
Definition same_rows : tset R Z := mkSet 2 1 (fun _ _ => 0%R) (fun _ => 12%Z) ["x"].
End Strings.
Definition ng1 : ng := mkNG 0 1 1 1.
Definition same_h : hyper ng := mkHyper (1 / 2) (Some ng1) 0 false 0.

(** Equal rows are never split. *)
Lemma same_rows_fit {Y P S} (F : feat R R) (L : lik Y P S) same lvl pa (y : Y) names :
  permutes (f_argsort F) -> (forall a, f_gap F a a = false) ->
  exists i, perp_fit F L same false lvl pa (mkSet 2 1 (fun _ _ => 0%R) (fun _ => y) names) = Ok (Leaf i) /\
    i_n_data i = 2 /\ i_post i = l_post L (l_prior L pa 2 1) [y; y].
Proof.
  intros Hs Hg. unfold perp_fit, pfit_root, root_indices. cbn [ts_n ts_dim ts_X ts_y ts_names seq map].
  assert (H64 : (N.of_nat 2 <= 2 ^ 64)%N) by (vm_compute; congruence).
  specialize (Hs (fun _ => 0%R) 2). cbn [seq] in Hs. apply Permutation_sym, Permutation_length_2_inv in Hs.
  assert (E0 : store_index 2 0 = 0) by (apply store_index_id; auto).
  assert (E1 : store_index 2 1 = 1) by (apply store_index_id; auto).
  assert (Hs' : map (store_index 2) (f_argsort F (fun _ => 0%R) 2) = [0; 1] \/ map (store_index 2) (f_argsort F (fun _ => 0%R) 2) = [1; 0]).
  { destruct Hs as [-> | ->]; cbn [map]; rewrite E0, E1; auto. }
  clear E0 E1 H64.
  assert (Hscan : forall prior row ns, row = [0; 1] \/ row = [1; 0] ->
    scan F L (fun _ _ => 0%R) (fun _ => y) lvl prior [row] ns = mkBest ns (-1) (-1)).
  { intros prior row ns [-> | ->]; unfold scan, scan_dim, split_positions, gather;
      cbn [length seq combine fold_left map adjacent]; rewrite Hg; reflexivity. }
  cbn [pfit]. destruct Hs' as [E|E]; rewrite E, Hscan by auto; cbn [b_idx rbind gather map length];
    (change (0 <? -1)%Z with false); eexists; (split; [reflexivity|auto]).
Qed.

Lemma int8_targets srt : permutes srt -> exists i j,
  ireg_fit int8 srt same_h same_rows = Ok (Leaf i) /\ reg_fit srt same_h (map_target IZR same_rows) = Ok (Leaf j) /\
  ng_beta (i_post i) = (-207)%R /\ ng_beta (i_post j) = 49%R.
Proof.
  intros Hp. unfold ireg_fit, reg_fit.
  assert (Hg : forall a, f_gap (feat_R (h_prec same_h) srt) a a = false).
  { intros a. simpl. apply Rgtb_false. rewrite Rminus_diag_eq, Rabs_R0 by auto. lra. }
  destruct (same_rows_fit (feat_R (h_prec same_h) srt) (ireg_lik int8 (h_pp same_h) (h_delta same_h)) reg_same 0 (h_prior same_h) 12%Z
    (ts_names same_rows)) as (i & Ei & _ & Pi); auto.
  destruct (same_rows_fit (feat_R (h_prec same_h) srt) (reg_lik (h_pp same_h) (h_delta same_h)) reg_same 0 (h_prior same_h) (IZR 12)
    (ts_names same_rows)) as (j & Ej & _ & Pj); auto.
  exists i, j. split; [exact Ei|]. split; [exact Ej|]. rewrite Pi, Pj. split.
  - cbn [ireg_lik l_post l_prior same_h h_prior reg_get_prior]. unfold ireg_posterior.
    change (i_sum int8 [12; 12]%Z) with 24%Z. change (i_sum int8 (i_sq int8 [12; 12]%Z)) with (-224)%Z.
    unfold ireg_post_internal. change (wrap (acc int8) (24 * 24)) with 576%Z.
    cbn [ng_beta ng_mu ng_kappa ng_alpha ng1 length Z.of_nat Pos.of_succ_nat Pos.succ]. lra.
  - cbn. unfold reg_posterior. replace (Reqb 1 0) with false by (symmetry; apply Reqb_false; lra).
    unfold reg_post_internal, vsum. simpl. lra.
Qed.
