(** * Equiv: independence of tie-breaking and row order; equivariance under feature scaling, class
    relabelling and target scaling. *)
From Coq Require Import Permutation FinFun.
From Verif Require Import Prelude Lists Tree Perp Gamma RealOps Clf Reg Api Spec PredictProofs FitProofs
  StructProofs PruneProofs OptSpec OptProofs OptFit OptNodes Transport ClfSpec ClfProofs RegSpec RegProofs
  ApiSpec ApiProofs NodeFacts SplitFacts.
Local Open Scope nat_scope.

(** Pruning respects the relation of trees. *)
Lemma prune_rel {V V' S S' P P' NM} (fv : nat -> V -> V') (Rs : nat -> S -> S' -> Prop) (Rp : P -> P' -> Prop)
    (same : ninfo P -> ninfo P -> bool) (same' : ninfo P' -> ninfo P' -> bool) :
  (forall i j i' j', info_rel Rp i i' -> info_rel Rp j j' -> same i j = same' i' j') ->
  forall (t : tree (pdesc NM V) S P) t', tree_rel fv Rs Rp t t' ->
  tree_rel fv Rs Rp (prune_bu same t) (prune_bu same' t').
Proof.
  intros Hs. induction 1 as [i i' Hi|i i' d nm v a a' b b' c1 c1' c2 c2' Hi Ha Hb H1 IH1 H2 IH2].
  - constructor; auto.
  - cbn [prune_bu].
    destruct IH1 as [i1 i1' Hi1|]; [destruct IH2 as [i2 i2' Hi2|]|].
    + rewrite <- (Hs i1 i2 i1' i2') by auto. destruct (same i1 i2).
      * constructor; auto.
      * constructor; auto; constructor; auto.
    + constructor; auto; constructor; auto.
    + constructor; auto. constructor; auto.
Qed.

Section Sim.
Context {P P' : Type}.
Variables srt srt' : (nat -> R) -> nat -> list nat.
Variables prec prec' : R.
Variable L : lik R P R.
Variable L' : lik R P' R.
Variable T : tgt R P R.
Variable T' : tgt R P' R.
Variables (Pok : P -> Prop) (Pok' : P' -> Prop) (Yok Yok' : R -> Prop).
Variable same : ninfo P -> ninfo P -> bool.
Variable same' : ninfo P' -> ninfo P' -> bool.
Hypothesis Hsrt : sorts Rleb srt.
Hypothesis Hsrt' : sorts Rleb srt'.
Hypothesis Hprec : (0 <= prec)%R.
Hypothesis Hprec' : (0 <= prec')%R.
Hypothesis HL : lik_law L T Pok Yok.
Hypothesis HL' : lik_law L' T' Pok' Yok'.
Hypothesis HTp : tgt_perm T.
Hypothesis HTp' : tgt_perm T'.
Variables d d' : tset R R.
Variable phi : nat -> nat.
Variable fx fv : nat -> R -> R.
Variable fy : R -> R.
Variable Rs : nat -> R -> R -> Prop.
Variable Rp : P -> P' -> Prop.
Hypothesis Hleb : forall f a b, Rleb (fx f a) (fx f b) = Rleb a b.
Hypothesis Hgap : forall f a b, Rleb a b = true -> gap_R prec' (fx f a) (fx f b) = gap_R prec a b.
Hypothesis Hmid : forall f a b, Rleb a b = true -> mid_R (fx f a) (fx f b) = fv f (mid_R a b).
Hypothesis HT : tgt_rel T T' Yok fy Rs Rp.
Hypothesis Hn : ts_n d' = ts_n d.
Hypothesis Hdim : ts_dim d' = ts_dim d.
Hypothesis Hnames : ts_names d' = ts_names d.
Hypothesis HX : forall i f, i < ts_n d -> ts_X d' (phi i) f = fx f (ts_X d i f).
Hypothesis Hy : forall i, i < ts_n d -> ts_y d' (phi i) = fy (ts_y d i).
Hypothesis Hphi : Permutation (map phi (seq 0 (ts_n d))) (seq 0 (ts_n d)).
Hypothesis Hsame : forall i j i' j', info_rel Rp i i' -> info_rel Rp j j' -> same i j = same' i' j'.
Hypothesis Hd : tset_ok d.
Variables (pa : option P) (pa' : option P').
Hypothesis HY : forall i, i < ts_n d -> Yok (ts_y d i).
Hypothesis HY' : forall i, i < ts_n d -> Yok' (ts_y d' i).
Hypothesis HP : Pok (t_prior T pa (ts_n d) (ts_dim d)).
Hypothesis HP' : Pok' (t_prior T' pa' (ts_n d) (ts_dim d)).
Hypothesis Hpa : opt_rel Rp pa pa'.
Hypothesis Hprior : Rp (t_prior T pa (ts_n d) (ts_dim d)) (t_prior T' pa' (ts_n d) (ts_dim d)).

Lemma fit_sim pr lvl t : perp_fit (feat_R prec srt) L same pr lvl pa d = Ok t ->
  exists t', perp_fit (feat_R prec' srt') L' same' pr lvl pa' d' = Ok t' /\ tree_rel fv Rs Rp t t'.
Proof.
  intros E.
  destruct (real_fit_inv srt prec L T Pok Yok same Hsrt Hprec HL HTp pr lvl pa d t Hd HY HP E) as (t0 & Ho & Et & _).
  assert (Hd' : tset_ok d') by (unfold tset_ok in *; rewrite Hn, Hdim, Hnames; auto).
  destruct (real_fit srt' prec' L' T' Pok' Yok' same' Hsrt' Hprec' HL' HTp' pr lvl pa' d' Hd') as (t' & t0' & E' & Ho' & Et' & _).
  { rewrite Hn; auto. } { rewrite Hn, Hdim; auto. }
  exists t'. split; auto.
  assert (Hrel : tree_rel fv Rs Rp t0 t0').
  { destruct (proj1 (opt_transport Rleb (gap_R prec) Rleb (gap_R prec') mid_R mid_R T T' (ts_X d) (ts_y d) (ts_X d') (ts_y d')
       (ts_names d) (ts_dim d) phi fx fv fy Yok Rs Rp R_order R_order Hleb Hgap Hmid HT) _ _ _ _ Ho pa') as (t1 & H1 & Hr).
    - split; [|split].
      + intros i f Hi _. apply in_seq in Hi. apply HX. lia.
      + intros i Hi. apply in_seq in Hi. apply Hy. lia.
      + rewrite Forall_forall. intros v Hv. apply in_map_iff in Hv as (i & <- & Hi). apply in_seq in Hi. apply HY. lia.
    - apply all_rows_ne; auto.
    - exact Hpa.
    - unfold all_rows. rewrite seq_length. exact Hprior.
    - assert (t0' = t1) as ->; auto.
      rewrite Hnames, Hdim in Ho'.
      apply (proj1 (opt_functional Rleb (gap_R prec') mid_R (feat_R prec' srt') T' (ts_X d') (ts_y d') (ts_names d)
          (feat_R_law prec' srt' Hprec' Hsrt') (ts_dim d)) _ _ _ _ Ho').
      apply (proj1 (opt_perm Rleb (gap_R prec') mid_R T' (ts_X d') (ts_y d') (ts_names d) HTp' (ts_dim d)) _ _ _ _ H1).
      unfold all_rows. rewrite Hn. exact Hphi. }
  subst t t'. destruct pr; auto. apply prune_rel; auto.
Qed.
End Sim.

Lemma tree_rel_eq {V S P NM} (fv : nat -> V -> V) (t t' : tree (pdesc NM V) S P) :
  (forall f v, fv f v = v) -> tree_rel fv (fun _ => eq) eq t t' -> t = t'.
Proof.
  intros Hfv. assert (Hi : forall i i' : ninfo P, info_rel eq i i' -> i = i').
  { intros [p l n m q] [p' l' n' m' q'] (H1 & H2 & H3 & H4 & H5). simpl in *. subst.
    destruct p, p'; simpl in H1; subst; tauto. }
  induction 1 as [i i' H|i i' d nm v a a' b b' c1 c1' c2 c2' H Ha Hb H1 IH1 H2 IH2].
  - f_equal; auto.
  - rewrite Hfv. f_equal; auto.
Qed.

Lemma tgt_rel_id {Y P S} (T : tgt Y P S) Yok : tgt_rel T T Yok (fun y => y) (fun _ => eq) eq.
Proof. constructor; intros; subst; rewrite ?map_id; try reflexivity. Qed.

Lemma same_id {P} (same : ninfo P -> ninfo P -> bool) i j i' j' : info_rel eq i i' -> info_rel eq j j' -> same i j = same i' j'.
Proof.
  assert (Hi : forall i i' : ninfo P, info_rel eq i i' -> i = i').
  { intros [p l n m q] [p' l' n' m' q'] (H1 & H2 & H3 & H4 & H5). simpl in *. subst.
    destruct p, p'; simpl in H1; subst; tauto. }
  intros H1 H2. apply Hi in H1, H2. subst. auto.
Qed.

Lemma opt_rel_refl {P} (pa : option P) : opt_rel eq pa pa.
Proof. destruct pa; simpl; auto. Qed.

(** ** C19, C20 *)
Lemma clf_fit_reorder srt srt' k prior h d sigma t : clf_setting srt k prior h d -> sorts Rleb srt' ->
  reordering (ts_n d) sigma -> clf_fit srt h d = Ok t -> clf_fit srt' h (reorder sigma d) = Ok t.
Proof.
  intros H Hs' Hp E. pose proof H as (Hs & (Hpp & Hdel & Hprec) & Hd & _).
  (* the reordered set is the source of the simulation *)
  assert (Hsig : forall i, i < ts_n d -> sigma i < ts_n d).
  { intros i Hi. assert (In (sigma i) (seq 0 (ts_n d))).
    { eapply Permutation_in; [exact Hp|]. apply in_map, in_seq. lia. } apply in_seq in H0. lia. }
  assert (H' : clf_setting srt' k prior h (reorder sigma d)).
  { destruct H as (A & B & C & D & F & G & K). repeat (split; auto). intros i Hi. apply K. apply Hsig. exact Hi. }
  destruct (clf_fit_opt srt' k prior h (reorder sigma d) H') as (t' & _ & E' & _).
  rewrite E'. f_equal. unfold clf_fit in E, E'.
  destruct (fit_sim srt' srt (h_prec h) (h_prec h) (clf_lik (h_pp h) (h_delta h)) (clf_lik (h_pp h) (h_delta h))
     (clf_tgt (h_pp h) (h_delta h)) (clf_tgt (h_pp h) (h_delta h)) (clf_pok k) (clf_pok k) (clf_yok k) (clf_yok k)
     clf_same clf_same Hs' Hs Hprec Hprec (clf_law k _ _ Hdel) (clf_law k _ _ Hdel) (clf_tgt_perm _ _) (clf_tgt_perm _ _)
     (reorder sigma d) d sigma (fun _ x => x) (fun _ x => x) (fun y => y) (fun _ => eq) eq) with
     (pa := h_prior h) (pa' := h_prior h) (pr := h_prune h) (lvl := 0) (t := t') as (t1 & E1 & Hr);
     auto using tgt_rel_id, opt_rel_refl.
  - apply same_id.
  - exact (clf_setting_Yok _ _ _ _ _ H').
  - exact (clf_setting_Yok _ _ _ _ _ H).
  - exact (clf_setting_Pok _ _ _ _ _ H).
  - exact (clf_setting_Pok _ _ _ _ _ H).
  - rewrite E in E1. injection E1 as <-. eapply tree_rel_eq; [|exact Hr]. auto.
Qed.

Lemma reg_fit_reorder srt srt' prior h d sigma t : reg_setting srt prior h d -> sorts Rleb srt' ->
  reordering (ts_n d) sigma -> reg_fit srt h d = Ok t -> reg_fit srt' h (reorder sigma d) = Ok t.
Proof.
  intros H Hs' Hp E. pose proof H as (Hs & (Hpp & Hdel & Hprec) & Hd & _).
  assert (H' : reg_setting srt' prior h (reorder sigma d)).
  { destruct H as (A & B & C & D & F). repeat (split; auto). }
  destruct (reg_fit_opt srt' prior h (reorder sigma d) H') as (t' & _ & E' & _).
  rewrite E'. f_equal. unfold reg_fit in E, E'.
  destruct (fit_sim srt' srt (h_prec h) (h_prec h) (reg_lik (h_pp h) (h_delta h)) (reg_lik (h_pp h) (h_delta h))
     (reg_tgt (h_pp h) (h_delta h)) (reg_tgt (h_pp h) (h_delta h)) reg_pok reg_pok (fun _ => True) (fun _ => True)
     reg_same reg_same Hs' Hs Hprec Hprec (reg_law _ _ Hdel) (reg_law _ _ Hdel) (reg_tgt_perm _ _) (reg_tgt_perm _ _)
     (reorder sigma d) d sigma (fun _ x => x) (fun _ x => x) (fun y => y) (fun _ => eq) eq) with
     (pa := h_prior h) (pa' := h_prior h) (pr := h_prune h) (lvl := 0) (t := t') as (t1 & E1 & Hr);
     auto using tgt_rel_id, opt_rel_refl.
  - apply same_id.
  - exact (reg_setting_Pok _ _ _ _ H).
  - exact (reg_setting_Pok _ _ _ _ H).
  - rewrite E in E1. injection E1 as <-. eapply tree_rel_eq; [|exact Hr]. auto.
Qed.

(** ** C21 *)
Lemma tree_rel_scale {S P NM} u v (t t' : tree (pdesc NM R) S P) :
  tree_rel (fun f x => (u f * x + v f)%R) (fun _ => eq) eq t t' -> t' = scale_thresholds u v t.
Proof.
  assert (Hi : forall i i' : ninfo P, info_rel eq i i' -> i' = i).
  { intros [p l n m q] [p' l' n' m' q'] (H1 & H2 & H3 & H4 & H5). simpl in *. subst.
    destruct p, p'; simpl in H1; subst; tauto. }
  induction 1 as [i i' H|i i' d nm x a a' b b' c1 c1' c2 c2' H Ha Hb H1 IH1 H2 IH2]; simpl.
  - f_equal; auto.
  - f_equal; auto.
Qed.

Lemma scale_leb u v a b : (0 < u)%R -> Rleb (u * a + v) (u * b + v) = Rleb a b.
Proof.
  intros Hu. destruct (Rleb a b) eqn:E.
  - apply Rleb_true in E. apply Rleb_true. apply Rplus_le_compat_r, Rmult_le_compat_l; lra.
  - apply Rleb_false in E. apply Rleb_false. apply Rplus_lt_compat_r, Rmult_lt_compat_l; lra.
Qed.
Lemma scale_gap u v a b : (0 < u)%R -> gap_R 0 (u * a + v) (u * b + v) = gap_R 0 a b.
Proof.
  intros Hu. unfold gap_R. destruct (Rgtb (b - a) 0) eqn:E.
  - apply Rgtb_true in E. apply Rgtb_true. assert (u * a < u * b)%R by (apply Rmult_lt_compat_l; lra). lra.
  - apply Rgtb_false in E. apply Rgtb_false. assert (u * b <= u * a)%R by (apply Rmult_le_compat_l; lra). lra.
Qed.
Lemma reordering_id n : Permutation (map (fun i : nat => i) (seq 0 n)) (seq 0 n).
Proof. rewrite map_id. apply Permutation_refl. Qed.

Lemma clf_fit_scale srt srt' k prior h d u v t : clf_setting srt k prior h d -> sorts Rleb srt' ->
  h_prec h = 0%R -> (forall f, 0 < u f)%R ->
  clf_fit srt h d = Ok t -> clf_fit srt' h (scale_features u v d) = Ok (scale_thresholds u v t).
Proof.
  intros H Hs' H0 Hu E. pose proof H as (Hs & (Hpp & Hdel & Hprec) & Hd & _). unfold clf_fit in *. rewrite H0 in *.
  destruct (fit_sim srt srt' 0 0 (clf_lik (h_pp h) (h_delta h)) (clf_lik (h_pp h) (h_delta h))
     (clf_tgt (h_pp h) (h_delta h)) (clf_tgt (h_pp h) (h_delta h)) (clf_pok k) (clf_pok k) (clf_yok k) (clf_yok k)
     clf_same clf_same Hs Hs' Hprec Hprec (clf_law k _ _ Hdel) (clf_law k _ _ Hdel) (clf_tgt_perm _ _) (clf_tgt_perm _ _)
     d (scale_features u v d) (fun i => i) (fun f x => u f * x + v f)%R (fun f x => u f * x + v f)%R (fun y => y)
     (fun _ => eq) eq) with
     (pa := h_prior h) (pa' := h_prior h) (pr := h_prune h) (lvl := 0) (t := t) as (t1 & E1 & Hr);
     auto using tgt_rel_id, opt_rel_refl, reordering_id, scale_leb, scale_gap.
  - intros f a b _. unfold mid_R. field.
  - apply same_id.
  - exact (clf_setting_Yok _ _ _ _ _ H).
  - exact (clf_setting_Yok _ _ _ _ _ H).
  - exact (clf_setting_Pok _ _ _ _ _ H).
  - exact (clf_setting_Pok _ _ _ _ _ H).
  - rewrite E1. f_equal. apply tree_rel_scale; auto.
Qed.

Lemma reg_fit_scale srt srt' prior h d u v t : reg_setting srt prior h d -> sorts Rleb srt' ->
  h_prec h = 0%R -> (forall f, 0 < u f)%R ->
  reg_fit srt h d = Ok t -> reg_fit srt' h (scale_features u v d) = Ok (scale_thresholds u v t).
Proof.
  intros H Hs' H0 Hu E. pose proof H as (Hs & (Hpp & Hdel & Hprec) & Hd & _). unfold reg_fit in *. rewrite H0 in *.
  destruct (fit_sim srt srt' 0 0 (reg_lik (h_pp h) (h_delta h)) (reg_lik (h_pp h) (h_delta h))
     (reg_tgt (h_pp h) (h_delta h)) (reg_tgt (h_pp h) (h_delta h)) reg_pok reg_pok (fun _ => True) (fun _ => True)
     reg_same reg_same Hs Hs' Hprec Hprec (reg_law _ _ Hdel) (reg_law _ _ Hdel) (reg_tgt_perm _ _) (reg_tgt_perm _ _)
     d (scale_features u v d) (fun i => i) (fun f x => u f * x + v f)%R (fun f x => u f * x + v f)%R (fun y => y)
     (fun _ => eq) eq) with
     (pa := h_prior h) (pa' := h_prior h) (pr := h_prune h) (lvl := 0) (t := t) as (t1 & E1 & Hr);
     auto using tgt_rel_id, opt_rel_refl, reordering_id, scale_leb, scale_gap.
  - intros f a b _. unfold mid_R. field.
  - apply same_id.
  - exact (reg_setting_Pok _ _ _ _ H).
  - exact (reg_setting_Pok _ _ _ _ H).
  - rewrite E1. f_equal. apply tree_rel_scale; auto.
Qed.

(** Predictions for transformed queries. *)
Lemma scale_route u v a b : (0 < u)%R -> Rltb (u * a + v) (u * b + v) = Rltb a b /\ Rgeb (u * a + v) (u * b + v) = Rgeb a b.
Proof.
  intros Hu. unfold Rgeb. rewrite scale_leb by auto. split; auto.
  destruct (Rltb a b) eqn:E.
  - apply Rltb_true in E. apply Rltb_true. apply Rplus_lt_compat_r, Rmult_lt_compat_l; lra.
  - apply Rltb_false in E. apply Rltb_false. apply Rplus_le_compat_r, Rmult_le_compat_l; lra.
Qed.
Lemma lookup_scale {S P O} u v (val : ninfo P -> O) (t : tree (pdesc string R) S P) Xq r : (forall f, 0 < u f)%R ->
  lookup (goes_left (scale_X u v Xq)) (goes_right (scale_X u v Xq)) val (scale_thresholds u v t) r
  = lookup (goes_left Xq) (goes_right Xq) val t r.
Proof.
  intros Hu. induction t as [i|i s a b c1 IH1 c2 IH2]; auto. cbn [scale_thresholds lookup].
  rewrite IH1, IH2. unfold goes_left, goes_right, scale_X. cbn [sd_dim sd_val].
  destruct (scale_route (u (sd_dim s)) (v (sd_dim s)) (Xq r (sd_dim s)) (sd_val s) (Hu _)) as [-> ->]. auto.
Qed.
Lemma predict_scale {S P O} u v (val : ninfo P -> O) (t : tree (pdesc string R) S P) Xq m init : (forall f, 0 < u f)%R ->
  predict_rows (goes_left (scale_X u v Xq)) (goes_right (scale_X u v Xq)) val (scale_thresholds u v t) m init
  = predict_rows (goes_left Xq) (goes_right Xq) val t m init.
Proof. intros Hu. rewrite !predict_rows_spec. apply map_ext. intros r. rewrite lookup_scale; auto. Qed.

(** ** C50 *)
Section Relabel.
Variable k : nat.
Variable pi : nat -> nat.
Hypothesis Hpi : class_perm k pi.

Lemma class_perm_perm : Permutation (map pi (seq 0 k)) (seq 0 k).
Proof.
  apply NoDup_Permutation_bis.
  - assert (H : forall l, NoDup l -> (forall c, In c l -> c < k) -> NoDup (map pi l)).
    { induction l as [|c l IH]; intros Hn Hl; simpl; constructor.
      - intros Hin. apply in_map_iff in Hin as (c' & E & Hc'). apply (proj2 Hpi) in E; simpl in Hl; auto.
        inversion Hn; subst; auto.
      - inversion Hn; subst. apply IH; auto. intros; apply Hl; simpl; auto. }
    apply H; [apply seq_NoDup|]. intros c Hc. apply in_seq in Hc. lia.
  - rewrite map_length. auto.
  - intros c Hc. apply in_map_iff in Hc as (c' & <- & Hc'). apply in_seq in Hc'. apply in_seq.
    pose proof (proj1 Hpi c'). lia.
Qed.

Lemma permuted_sum p p' : permuted k pi p p' -> vsum p' = vsum p.
Proof.
  intros (L & L' & H). rewrite <- (map_seq_nth p), <- (map_seq_nth p'), L, L'.
  transitivity (vsum (map (fun c => nth c p' 0%R) (map pi (seq 0 k)))).
  - apply vsum_perm, Permutation_map. symmetry. apply class_perm_perm.
  - rewrite map_map. f_equal. apply map_ext_in. intros c Hc. apply in_seq in Hc. apply H. lia.
Qed.

Lemma yok_label y : clf_yok k y -> label y < k.
Proof. intros (c & Hc & ->). rewrite label_INR. auto. Qed.

Lemma relabel_label y : label (relabel pi y) = pi (label y).
Proof. unfold relabel. apply label_INR. Qed.

Lemma relabel_yok y : clf_yok k y -> clf_yok k (relabel pi y).
Proof. intros H. exists (pi (label y)). split; auto. apply (proj1 Hpi). apply yok_label; auto. Qed.

Lemma count_relabel c ys : c < k -> Forall (clf_yok k) ys ->
  count_label (pi c) (map (relabel pi) ys) = count_label c ys.
Proof.
  intros Hc. induction 1 as [|y ys Hy Hys IH]; auto. simpl map. rewrite !count_label_cons, IH, relabel_label.
  f_equal. destruct (Nat.eqb_spec (label y) c) as [->|N]; [rewrite Nat.eqb_refl; auto|].
  destruct (Nat.eqb_spec (pi (label y)) (pi c)) as [E|]; auto. apply (proj2 Hpi) in E; auto. contradiction.
  apply yok_label; auto.
Qed.

Lemma seq_prob_relabel p p' ys : permuted k pi p p' -> Forall (clf_yok k) ys ->
  forall b, Forall (clf_yok k) b -> seq_prob p' (map (relabel pi) b) (map (relabel pi) ys) = seq_prob p b ys.
Proof.
  intros Hp. induction 1 as [|y ys Hy Hys IH]; intros b Hb; auto. cbn [seq_prob map].
  replace (map (relabel pi) b ++ [relabel pi y]) with (map (relabel pi) (b ++ [y])) by (rewrite map_app; auto).
  rewrite IH by (apply Forall_app; split; auto). f_equal. unfold predictive.
  pose proof (yok_label y Hy) as Hl.
  rewrite relabel_label, count_relabel, map_length, (permuted_sum p p' Hp) by auto.
  rewrite (proj2 (proj2 Hp)) by auto. auto.
Qed.
Lemma dm_prob_relabel p p' ys : permuted k pi p p' -> Forall (clf_yok k) ys ->
  dm_prob p' (map (relabel pi) ys) = dm_prob p ys.
Proof. intros H1 H2. apply (seq_prob_relabel p p' ys H1 H2 []). auto. Qed.

Lemma add_counts_relabel w p p' ys : permuted k pi p p' -> Forall (clf_yok k) ys ->
  permuted k pi (add_counts w p ys) (add_counts w p' (map (relabel pi) ys)).
Proof.
  intros Hp HY. pose proof Hp as (L & L' & H). split; [|split]; try (rewrite add_counts_length; auto).
  intros c Hc. rewrite !add_counts_nth by (rewrite ?L, ?L'; auto; apply Hpi; auto).
  rewrite count_relabel, H by auto. auto.
Qed.

Lemma relabel_inj a b : clf_yok k a -> clf_yok k b -> relabel pi a = relabel pi b -> a = b.
Proof.
  intros (c & Hc & ->) (c' & Hc' & ->). unfold relabel. rewrite !label_INR. intros E. apply INR_eq in E.
  apply (proj2 Hpi) in E; [|auto|auto]. rewrite E. reflexivity.
Qed.

Lemma clf_relabel_rel pp delta : tgt_rel (clf_tgt pp delta) (clf_tgt pp delta) (clf_yok k) (relabel pi) (fun _ => eq) (permuted k pi).
Proof.
  constructor; cbn [t_prior t_stop t_cut t_gt t_post t_child_prior t_many clf_tgt]; intros; auto.
  - rewrite dm_prob_relabel with (p := p); auto.
  - rewrite !dm_prob_relabel with (p := p); auto.
  - subst. tauto.
  - apply add_counts_relabel; auto.
  - apply add_counts_relabel; auto.
  - rewrite Forall_forall in H. split.
    + intros (a & b & Ha & Hb & N). exists (relabel pi a), (relabel pi b). repeat split; try (apply in_map; auto).
      intros E. apply N. apply relabel_inj; auto.
    + intros (a & b & Ha & Hb & N). apply in_map_iff in Ha as (a0 & <- & Ha). apply in_map_iff in Hb as (b0 & <- & Hb).
      exists a0, b0. repeat split; auto. congruence.
Qed.
End Relabel.

Lemma tree_rel_skeleton {V S S' P P' NM} (Rs : nat -> S -> S' -> Prop) (Rp : P -> P' -> Prop)
    (t : tree (pdesc NM V) S P) (t' : tree (pdesc NM V) S' P') :
  tree_rel (fun _ v => v) Rs Rp t t' -> skeleton t' = skeleton t.
Proof.
  induction 1 as [i i' H|i i' d nm v a a' b b' c1 c1' c2 c2' H Ha Hb H1 IH1 H2 IH2]; simpl;
    destruct H as (_ & -> & -> & -> & _); f_equal; auto.
Qed.

(** Leaves reached in related trees carry related posteriors. *)
Lemma tree_rel_lookup {V S S' P P' NM O O'} (Rs : nat -> S -> S' -> Prop) (Rp : P -> P' -> Prop) (Ro : O -> O' -> Prop)
    (val : ninfo P -> O) (val' : ninfo P' -> O') go1 go2 r :
  (forall i i', info_rel Rp i i' -> Ro (val i) (val' i')) ->
  forall (t : tree (pdesc NM V) S P) (t' : tree (pdesc NM V) S' P'),
  tree_rel (fun _ v => v) Rs Rp t t' ->
  opt_rel Ro (lookup go1 go2 val t r) (lookup go1 go2 val' t' r).
Proof.
  intros Hv. induction 1 as [i i' H|i i' d nm v a a' b b' c1 c1' c2 c2' H Ha Hb H1 IH1 H2 IH2]; cbn [lookup].
  - simpl. auto.
  - destruct (go2 _ r), (go1 _ r); destruct (lookup go1 go2 val c2 r), (lookup go1 go2 val' c2' r); simpl in *; auto; contradiction.
Qed.

(** Value relation between two predictions. *)
Definition permuted_row (k : nat) (pi : nat -> nat) (o o' : option (list R)) : Prop :=
  opt_rel (permuted k pi) o o'.

Lemma clf_fit_relabel srt srt' k prior prior' h h' d pi t : clf_setting srt k prior h d -> sorts Rleb srt' ->
  class_perm k pi -> permuted k pi prior prior' -> h_prune h = false ->
  h' = mkHyper (h_pp h) (Some prior') (h_delta h) false (h_prec h) ->
  clf_fit srt h d = Ok t ->
  exists t', clf_fit srt' h' (map_target (relabel pi) d) = Ok t' /\ skeleton t' = skeleton t /\
    forall Xq m q p, nth_error (clf_predict_proba t Xq m) q = Some (Some p) ->
      exists p', nth_error (clf_predict_proba t' Xq m) q = Some (Some p') /\ permuted k pi p p'.
Proof.
  intros H Hs' Hpi Hpp' Hnp -> E. pose proof H as (Hs & (Hpp & Hdel & Hprec) & Hd & Hp & Hk & Hpos & HY).
  unfold clf_fit in *. cbn [h_prec h_pp h_delta h_prune h_prior]. rewrite Hnp in E.
  assert (Hpok' : clf_pok k prior').
  { destruct Hpp' as (L & L' & Hc). split; auto. rewrite Forall_forall in *. intros x Hx.
    apply (In_nth _ _ 0%R) in Hx as (j & Hj & <-). rewrite L' in Hj.
    assert (Hin : In j (map pi (seq 0 k))).
    { eapply Permutation_in; [symmetry; apply class_perm_perm; auto|]. apply in_seq. lia. }
    apply in_map_iff in Hin as (c & <- & Hin). apply in_seq in Hin. rewrite Hc by lia.
    apply Hpos. apply nth_In. rewrite L. lia. }
  destruct (fit_sim srt srt' (h_prec h) (h_prec h) (clf_lik (h_pp h) (h_delta h)) (clf_lik (h_pp h) (h_delta h))
     (clf_tgt (h_pp h) (h_delta h)) (clf_tgt (h_pp h) (h_delta h)) (clf_pok k) (clf_pok k) (clf_yok k) (clf_yok k)
     (fun _ _ => false) (fun _ _ => false) Hs Hs' Hprec Hprec (clf_law k _ _ Hdel) (clf_law k _ _ Hdel) (clf_tgt_perm _ _) (clf_tgt_perm _ _)
     d (map_target (relabel pi) d) (fun i => i) (fun f x => x)%R (fun f x => x)%R (relabel pi)
     (fun _ => eq) (permuted k pi)) with
     (pa := h_prior h) (pa' := Some prior') (pr := false) (lvl := 0) (t := t) as (t1 & E1 & Hr);
     auto using clf_relabel_rel, reordering_id.
  - intros i Hi. simpl. apply relabel_yok; auto. apply HY; auto.
  - exact (clf_setting_Pok _ _ _ _ _ H).
  - rewrite Hp. simpl. auto.
  - rewrite Hp. simpl. auto.
  - exists t1. split; [exact E1|]. split; [eapply tree_rel_skeleton; eauto|].
    intros Xq m q p. unfold clf_predict_proba. rewrite !predict_rows_spec, !nth_error_map.
    destruct (nth_error (seq 0 m) q) as [r|]; simpl; [|discriminate].
    assert (Hv : forall i i' : ninfo (list R), info_rel (permuted k pi) i i' ->
       permuted_row k pi (Some (clf_posterior_mean (i_post i))) (Some (clf_posterior_mean (i_post i')))).
    { intros i i' (_ & _ & _ & _ & Hq). pose proof Hq as (L & L' & Hc).
      unfold permuted_row, opt_rel, clf_posterior_mean. split; [rewrite map_length; auto|split; [rewrite map_length; auto|]].
      intros c Hcc. rewrite (permuted_sum k pi Hpi _ _ Hq).
      rewrite (nth_indep _ 0%R (0 / vsum (i_post i))%R) by (rewrite map_length, L'; apply Hpi; auto).
      rewrite (nth_indep (map _ (i_post i)) 0%R (0 / vsum (i_post i))%R) by (rewrite map_length, L; auto).
      rewrite !(map_nth (fun a => (a / vsum (i_post i))%R)), Hc by auto. reflexivity. }
    pose proof (tree_rel_lookup _ _ _ _ _ (goes_left Xq) (goes_right Xq) r Hv _ _ Hr) as Hl.
    destruct (lookup _ _ _ t r) as [o|], (lookup _ _ _ t1 r) as [o'|]; simpl in Hl; try contradiction; [|discriminate].
    intros Eo. injection Eo as ->. destruct o' as [p'|]; [|contradiction]. exists p'. auto.
Qed.

(** ** C51 *)
Section TargetScale.
Variables s c : R.
Hypothesis Hs : (0 < s)%R.
Notation affine := (affine s c).
Notation scale_ng := (scale_ng s c).
Definition Rng (p p' : ng) : Prop := reg_pok p /\ p' = scale_ng p.

Lemma mean_affine ys : ys <> [] -> mean (map affine ys) = affine (mean ys).
Proof.
  intros Hne. unfold mean, ApiSpec.affine. rewrite map_length, vsum_map_lin. pose proof (INR_len_pos ys Hne). field. lra.
Qed.
Lemma ssd_affine ys : ys <> [] -> ssd (map affine ys) = (s ^ 2 * ssd ys)%R.
Proof.
  intros Hne. unfold ssd. rewrite map_map, mean_affine by auto. unfold ApiSpec.affine.
  rewrite (map_ext _ (fun y => s ^ 2 * (y - mean ys) ^ 2 + 0)%R) by (intros; ring).
  rewrite <- (map_map (fun y => (y - mean ys) ^ 2)%R (fun z => s ^ 2 * z + 0)%R), vsum_map_lin. ring.
Qed.
Lemma ng_update_affine w p ys : (0 <= w)%R -> reg_pok p -> ys <> [] ->
  ng_update w (scale_ng p) (map affine ys) = scale_ng (ng_update w p ys).
Proof.
  intros Hw (Hk & _) Hne. unfold ng_update, ApiSpec.scale_ng. simpl. rewrite map_length, mean_affine, ssd_affine by auto.
  pose proof (INR_len_pos ys Hne) as Hn. assert (0 <= INR (length ys) * w)%R by (apply Rmult_le_pos; lra).
  unfold ApiSpec.affine. f_equal.
  - field. lra.
  - field. lra.
Qed.
Lemma ng_logev_affine p ys : reg_pok p -> ys <> [] ->
  ng_logev (scale_ng p) (map affine ys) = (ng_logev p ys - INR (length ys) * ln s)%R.
Proof.
  intros Hp Hne. unfold ng_logev. rewrite ng_update_affine by (auto; lra).
  pose proof (ng_update_ok 1 p ys ltac:(lra) Hp) as (_ & _ & Hb'). destruct Hp as (Hk & Ha & Hb).
  assert (Hs2 : (0 < s ^ 2)%R) by (apply pow_lt; auto).
  unfold ApiSpec.scale_ng. cbn [ng_alpha ng_beta ng_kappa]. rewrite map_length.
  rewrite !ln_mult by auto. replace (ln (s ^ 2)) with (2 * ln s)%R by (simpl; rewrite !ln_mult by lra; rewrite ln_1; ring).
  replace (ng_alpha (ng_update 1 p ys)) with (ng_alpha p + INR (length ys) / 2)%R by (unfold ng_update; simpl; field).
  field.
Qed.

Lemma reg_scale_rel pp delta : (0 <= delta)%R ->
  tgt_rel (reg_tgt pp delta) (reg_tgt pp delta) (fun _ => True) affine
    (fun n a a' => a' = (a - INR n * ln s)%R) Rng.
Proof.
  intros Hdel. constructor; cbn [t_prior t_stop t_cut t_gt t_post t_child_prior t_many reg_tgt]; intros; auto.
  - destruct H as (Hp & ->). rewrite ng_logev_affine by auto. ring.
  - destruct H as (Hp & ->). rewrite !ng_logev_affine by auto. rewrite plus_INR. ring.
  - subst. split; intros; lra.
  - destruct H as (Hp & ->). split; [apply ng_update_ok; auto; lra|]. apply ng_update_affine; auto; lra.
  - destruct H as (Hp & ->). split; [apply ng_update_ok; auto; lra|]. apply ng_update_affine; auto; lra.
  - split.
    + intros (a & b & Ha & Hb & N). exists (affine a), (affine b). repeat split; try (apply in_map; auto).
      unfold ApiSpec.affine. intros E. apply N. apply (Rmult_eq_reg_l s); lra.
    + intros (a & b & Ha & Hb & N). apply in_map_iff in Ha as (a0 & <- & Ha). apply in_map_iff in Hb as (b0 & <- & Hb).
      exists a0, b0. repeat split; auto. congruence.
Qed.

Lemma reg_fit_target_scale srt srt' prior h h' d t : reg_setting srt prior h d -> h_prior h = Some prior -> sorts Rleb srt' ->
  h' = mkHyper (h_pp h) (Some (scale_ng prior)) (h_delta h) (h_prune h) (h_prec h) ->
  reg_fit srt h d = Ok t ->
  exists t', reg_fit srt' h' (map_target affine d) = Ok t' /\ skeleton t' = skeleton t /\
    forall Xq m, reg_predict t' Xq m = map affine (reg_predict t Xq m).
Proof.
  intros H Hpr Hs' -> E. pose proof H as (Hss & (Hpp & Hdel & Hprec) & Hd & Hp & Hpok).
  unfold reg_fit in *. cbn [h_prec h_pp h_delta h_prune h_prior].
  assert (Hpok' : reg_pok (scale_ng prior)).
  { destruct Hpok as (A & B & C). repeat split; auto. simpl. apply Rmult_lt_0_compat; auto. nra. }
  destruct (fit_sim srt srt' (h_prec h) (h_prec h) (reg_lik (h_pp h) (h_delta h)) (reg_lik (h_pp h) (h_delta h))
     (reg_tgt (h_pp h) (h_delta h)) (reg_tgt (h_pp h) (h_delta h)) reg_pok reg_pok (fun _ => True) (fun _ => True)
     reg_same reg_same Hss Hs' Hprec Hprec (reg_law _ _ Hdel) (reg_law _ _ Hdel) (reg_tgt_perm _ _) (reg_tgt_perm _ _)
     d (map_target affine d) (fun i => i) (fun f x => x)%R (fun f x => x)%R affine
     (fun n a a' => a' = (a - INR n * ln s)%R) Rng) with
     (pa := h_prior h) (pa' := Some (scale_ng prior)) (pr := h_prune h) (lvl := 0) (t := t) as (t1 & E1 & Hr);
     auto using reg_scale_rel, reordering_id.
  - intros i j i' j' (_ & _ & _ & _ & _ & Ei) (_ & _ & _ & _ & _ & Ej). unfold reg_same, reg_predict_leaf.
    rewrite Ei, Ej. simpl. destruct (Reqb (ng_mu (i_post i)) (ng_mu (i_post j))) eqn:Eq.
    + apply Reqb_true in Eq. symmetry. apply Reqb_true. rewrite Eq. auto.
    + apply Reqb_false in Eq. symmetry. apply Reqb_false. intros Eq'. apply Eq. apply (Rmult_eq_reg_l s); lra.
  - exact (reg_setting_Pok _ _ _ _ H).
  - rewrite Hpr. simpl. split; [exact Hpok|auto].
  - rewrite Hpr. simpl. split; [exact Hpok|auto].
  - exists t1. split; [exact E1|]. split; [eapply tree_rel_skeleton; eauto|].
    intros Xq m. unfold reg_predict. rewrite !predict_rows_spec, map_map. apply map_ext. intros r.
    assert (Hv : forall i i', info_rel Rng i i' -> reg_predict_leaf (i_post i') = affine (reg_predict_leaf (i_post i))).
    { intros i i' (_ & _ & _ & _ & _ & ->). reflexivity. }
    pose proof (tree_rel_lookup _ _ (fun v v' => v' = affine v) _ _ (goes_left Xq) (goes_right Xq) r Hv _ _ Hr) as Hl.
    destruct (lookup_reaches (goes_left Xq) (goes_right Xq) (fun i => reg_predict_leaf (i_post i)) t r) as (l & _ & El).
    { intros; apply goes_excl'. }
    rewrite El in *. destruct (lookup _ _ _ t1 r) as [v'|]; simpl in Hl; [auto|contradiction].
Qed.
End TargetScale.
