(** * FloatSame: with split precision 0, float64 features give the decisions of exact arithmetic. *)
From Coq Require Import Reals Lra Permutation Sorted.
From Flocq Require Import Core BinarySingleNaN Plus_error.
From Verif Require Import Prelude Lists Tree Perp RealOps Clf Reg Api Spec PruneProofs PredictProofs FitProofs OptProofs OptFit ApiSpec ApiProofs ClfProofs Routing Sim FloatFeat FloatProofs NumApi FloatReg FloatSum.
Local Open Scope R_scope.

(** The difference of two numbers is computed as zero only if they are equal. *)
Lemma gap0 (p a b : float64) : is_finite p = true -> B2R p = 0 -> is_finite a = true -> is_finite b = true ->
  gap_f p a b = Rgtb (Rabs (B2R b - B2R a)) 0.
Proof.
  intros Fp Ep Fa Fb. unfold gap_f.
  pose proof (Bminus_correct 53 1024 prec64_pos prec64_lt mode_NE b a Fb Fa) as H.
  set (m := Bminus mode_NE b a) in *.
  destruct (Rlt_bool_spec (Rabs (RN64 (B2R b - B2R a))) (bpow radix2 1024)) as [Hr|Hr].
  - replace (Rlt_bool _ _) with true in H by (symmetry; apply Rlt_bool_true; exact Hr). destruct H as (E & Fm & _).
    rewrite Bltb_correct by (auto; destruct m; auto).
    change (round radix2 (SpecFloat.fexp 53 1024) (round_mode mode_NE) (B2R b - B2R a)) with (RN64 (B2R b - B2R a)) in E.
    rewrite B2R_Babs, E, Ep.
    assert (Hz : RN64 (B2R b - B2R a) = 0 <-> B2R b - B2R a = 0).
    { split; [|intros ->; apply RN64_0]. intros Hz. destruct (Req_dec (B2R b - B2R a) 0) as [|Hne]; [assumption|]. exfalso.
      apply (round_plus_neq_0 radix2 fexp64 ZnearestE (B2R b) (- B2R a)); auto.
      - apply fmt_B2R.
      - apply generic_format_opp, fmt_B2R. }
    unfold Rgtb, Rltb.
    destruct (Req_dec (B2R b - B2R a) 0) as [E0|E0].
    + rewrite (proj2 Hz E0), E0, Rabs_R0. rewrite Rlt_bool_false by lra. destruct Rlt_dec; [lra|reflexivity].
    + rewrite Rlt_bool_true; [|apply Rabs_pos_lt; tauto]. destruct Rlt_dec as [|Hn]; [reflexivity|]. exfalso. apply Hn. apply Rabs_pos_lt. exact E0.
  - replace (Rlt_bool _ _) with false in H by (symmetry; apply Rlt_bool_false; exact Hr). destruct H as (E & _).
    assert (Hne : B2R b - B2R a <> 0).
    { intros E0. rewrite E0, RN64_0, Rabs_R0 in Hr. pose proof (bpow_gt_0 radix2 1024). lra. }
    unfold Rgtb, Rltb. destruct Rlt_dec as [_|Hn]; [|exfalso; apply Hn; apply Rabs_pos_lt; exact Hne].
    assert (Em : exists s, m = B754_infinity s).
    { destruct m as [s|s| |s mm e Hb]; unfold binary_overflow in E; simpl in E; try discriminate; eauto. }
    destruct Em as [s ->]. destruct p as [sp|sp| |sp mp ep Hp]; try discriminate; [reflexivity|].
    exfalso. simpl in Ep. apply eq_0_F2R in Ep. destruct sp; discriminate.
Qed.

(** The training set with real entries. *)
Definition B2R_set {Y} (d : tset float64 Y) : tset R Y :=
  mkSet (ts_n d) (ts_dim d) (fun i c => B2R (ts_X d i c)) (ts_y d) (ts_names d).

(** [t] and [t'] make the same decisions: the same features and names, the same node data and scores; each threshold of [t]
    is the computed midpoint of two float64 feature values, that of [t'] their exact midpoint. *)
Definition same_decisions {Y S P} (p : float64) (srt : (nat -> float64) -> nat -> list nat) (srt' : (nat -> R) -> nat -> list nat) (d : tset float64 Y)
  (t : tree (pdesc string float64) S P) (t' : tree (pdesc string R) S P) : Prop :=
  sim (feat_f p srt) (feat_R 0 srt') (ts_X d) (ts_X (B2R_set d)) (ts_n d) (ts_dim d) t t'.

Theorem float_same {Y P S} p srt srt' (L : lik Y P S) same do_prune lvl pa (d : tset float64 Y) t :
  is_finite p = true -> B2R p = 0 -> permutes srt -> tset_ok d -> finite_entries 53 1024 (ts_X d) (ts_n d) (ts_dim d) ->
  (forall c, (c < ts_dim d)%nat -> srt' (fun i => B2R (ts_X d i c)) (ts_n d) = srt (fun i => ts_X d i c) (ts_n d)) ->
  perp_fit (feat_f p srt) L same do_prune lvl pa d = Ok t ->
  exists t', perp_fit (feat_R 0 srt') L same do_prune lvl pa (B2R_set d) = Ok t' /\ same_decisions p srt srt' d t t'.
Proof.
  intros Fp Ep Hp Hd Hfin Hs E. unfold same_decisions, B2R_set. cbn [ts_X].
  apply (fit_sim (feat_f p srt) (feat_R 0 srt') L same do_prune lvl pa d (fun i c => B2R (ts_X d i c)) t); auto.
  intros c i j Hc Hi Hj. cbn [f_gap feat_f feat_R]. apply gap0; auto.
Qed.

(** ** The training rows take the same ways *)
Section Twin.
Context {A V A' V' Y P S NM : Type}.
Variable F : feat A V.
Variable F' : feat A' V'.
Variable L : lik Y P S.
Variable X : nat -> nat -> A.
Variable X' : nat -> nat -> A'.
Variable y : nat -> Y.
Variable names : list NM.
Variables n n_dim : nat.
Variable leb' : A' -> A' -> bool.
Local Open Scope nat_scope.

(** Equal but for the thresholds, which lie in the middle between the same neighbouring values; each of the [rows] goes the
    same way in both. *)
Definition between (rows : list nat) (d : nat) (v : V) (v' : V') : Prop :=
  exists r s, In r rows /\ In s rows /\ v = f_mid F (X r d) (X s d) /\ v' = f_mid F' (X' r d) (X' s d) /\
    leb' (X' r d) (X' s d) = true /\ f_gap F' (X' r d) (X' s d) = true /\
    forall q, In q rows -> leb' (X' q d) (X' r d) = true \/ leb' (X' s d) (X' q d) = true.
Inductive twin : list nat -> tree (pdesc NM V) S P -> tree (pdesc NM V') S P -> Prop :=
| twin_leaf rows i : twin rows (Leaf i) (Leaf i)
| twin_split rows i d nm v v' a b c1 c2 c1' c2' :
    between rows d v v' ->
    (forall r, In r rows -> pgo1 F X (mkDesc d nm v) r = pgo1 F' X' (mkDesc d nm v') r /\
                            pgo2 F X (mkDesc d nm v) r = pgo2 F' X' (mkDesc d nm v') r) ->
    twin (filter (pgo1 F X (mkDesc d nm v)) rows) c1 c1' -> twin (filter (pgo2 F X (mkDesc d nm v)) rows) c2 c2' ->
    twin rows (Split i (mkDesc d nm v) a b c1 c2) (Split i (mkDesc d nm v') a b c1' c2').

Lemma between_same rows rows' d v v' : (forall i, In i rows' <-> In i rows) -> between rows d v v' -> between rows' d v v'.
Proof.
  intros Hi (r & s & H1 & H2 & H3 & H4 & H5 & H6 & H7). exists r, s. rewrite !Hi. repeat split; auto.
  intros q Hq. apply H7, Hi, Hq.
Qed.
Lemma twin_same t : forall rows t', twin rows t t' -> forall rows', (forall i, In i rows' <-> In i rows) -> twin rows' t t'.
Proof.
  induction t as [i|i sd a b c1 IH1 c2 IH2]; intros rows t' H rows' Hi; inversion H as [|? ? d nm v v' ? ? ? ? c1' c2' Hbt Hg H1 H2]; subst; constructor.
  - eapply between_same; eauto.
  - intros r Hr. apply Hg, Hi, Hr.
  - eapply IH1; eauto. intros r. rewrite !filter_In, Hi. tauto.
  - eapply IH2; eauto. intros r. rewrite !filter_In, Hi. tauto.
Qed.
Lemma twin_info rows t t' : twin rows t t' -> info t' = info t.
Proof. destruct 1; auto. Qed.
Lemma twin_prune same t : forall rows t', twin rows t t' -> twin rows (prune_bu same t) (prune_bu same t').
Proof.
  induction t as [i|i sd a b c1 IH1 c2 IH2]; intros rows t' H; inversion H as [|? ? d nm v v' ? ? ? ? c1' c2' Hbt Hr H1 H2]; subst; simpl; [constructor|].
  specialize (IH1 _ _ H1). specialize (IH2 _ _ H2).
  assert (G : forall e1 e2 e1' e2', twin (filter (pgo1 F X (mkDesc d nm v)) rows) e1 e1' -> twin (filter (pgo2 F X (mkDesc d nm v)) rows) e2 e2' ->
     twin rows (Split i (mkDesc d nm v) a b e1 e2) (Split i (mkDesc d nm v') a b e1' e2')) by (intros; constructor; auto).
  inversion IH1 as [? i1 E1 E2 E3|? i1 d1 m1 v1 v1' a1 b1 e1 e2 e1' e2' K0 K1 K2 K3 E1 E2 E3]; [|apply G; [rewrite E2, E3; exact IH1|exact IH2]].
  inversion IH2 as [? i2 E4 E5 E6|? i2 d2 m2 v2 v2' a2 b2 f1 f2 f1' f2' M0 M1 M2 M3 E4 E5 E6].
  - destruct (same i1 i2); [constructor|]. apply G; constructor.
  - apply G; [constructor|]. rewrite E5, E6. exact IH2.
Qed.
Lemma twin_lookup {O} (val : ninfo P -> O) t : forall rows t', twin rows t t' -> forall r, In r rows ->
  lookup (pgo1 F X) (pgo2 F X) val t r = lookup (pgo1 F' X') (pgo2 F' X') val t' r.
Proof.
  induction t as [i|i sd a b c1 IH1 c2 IH2]; intros rows t' H r Hr; inversion H as [|? ? d nm v v' ? ? ? ? c1' c2' Hbt Hg H1 H2]; subst; [reflexivity|].
  cbn [lookup]. destruct (Hg r Hr) as [E1 E2]. rewrite <- E1, <- E2.
  destruct (pgo2 F X (mkDesc d nm v) r) eqn:G2; destruct (pgo1 F X (mkDesc d nm v) r) eqn:G1;
    rewrite ?(IH2 _ _ H2 r), ?(IH1 _ _ H1 r); auto; apply filter_In; auto.
Qed.

Variable leb : A -> A -> bool.
Hypothesis Hrefl : forall a, leb a a = true.
Hypothesis Hrefl' : forall a, leb' a a = true.
Hypothesis Ht : threshold_ok F leb X n n_dim.
Hypothesis Ht' : threshold_ok F' leb' X' n n_dim.
Hypothesis Hgap : forall d i j, d < n_dim -> i < n -> j < n -> f_gap F (X i d) (X j d) = f_gap F' (X' i d) (X' j d).

Lemma nfit_twin :
  (forall lvl pa rows idxs t, nfit F L X y names lvl pa rows idxs t ->
     forall t', nfit F' L X' y names lvl pa rows idxs t' -> length idxs <= n_dim -> (forall i, In i rows -> i < n) ->
     sorted_idx leb X idxs -> sorted_idx leb' X' idxs -> twin rows t t') /\
  (forall lvl p rows idxs t, nfit_child F L X y names lvl p rows idxs t ->
     forall t', nfit_child F' L X' y names lvl p rows idxs t' -> length idxs <= n_dim -> (forall i, In i rows -> i < n) ->
     sorted_idx leb X idxs -> sorted_idx leb' X' idxs -> twin rows t t').
Proof.
  apply nfit_mutind.
  - intros lvl pa rows idxs p ns bst Hwf Hp Hns Hb Hi t' H' Hl Hn Hs Hs'.
    assert (Hrows : forall row, In row idxs -> forall i, In i row -> i < n).
    { intros row Hin i Hii. apply Hn. destruct (wf_idx_rows Hwf Hin) as [Hpr _]. eapply Permutation_in; eauto. }
    pose proof (scan_sim F F' L X X' y n n_dim Hgap lvl p idxs ns Hl Hrows) as Es.
    inversion H' as [? ? ? ? p' ns' bst' W' Pp' N' B' I'|? ? ? ? p' ns' bst' dim row k nm v c1 c2 W' Pp' N' B' C' R' D' K' In' Kr' Nm' Vv' C1 C2]; subst.
    + constructor.
    + exfalso. rewrite <- Es, Hi in K'. simpl in K'. lia.
  - intros lvl pa rows idxs p ns bst dim row k nm v c1 c2 Hwf Hp Hns Hb Hc Hrow Hdim Hidx Hk Hkr Hnm Hv H1 IH1 H2 IH2 t' H' Hl Hn Hs Hs'.
    assert (Hrows : forall r, In r idxs -> forall i, In i r -> i < n).
    { intros r Hin i Hii. apply Hn. destruct (wf_idx_rows Hwf Hin) as [Hpr _]. eapply Permutation_in; eauto. }
    pose proof (scan_sim F F' L X X' y n n_dim Hgap lvl p idxs ns Hl Hrows) as Es.
    inversion H' as [? ? ? ? p' ns' bst' W' Pp' N' B' I'|? ? ? ? p' ns' bst' dim' row' k' nm' v' c1' c2' W' Pp' N' B' C' R' D' K' In' Kr' Nm' Vv' C1 C2]; subst.
    + exfalso. rewrite Es, I' in Hidx. simpl in Hidx. lia.
    + rewrite <- Es in *. rewrite Hidx in K'. rewrite Hdim in D'. apply Nat2Z.inj in K', D'. subst k' dim'.
      rewrite Hrow in R'. injection R' as <-. rewrite Hnm in Nm'. injection Nm' as <-.
      destruct (wf_idx_rows Hwf (nth_error_In _ _ Hrow)) as [Hpr Hnd].
      assert (Hd : dim < n_dim) by (assert (dim < length idxs) by (apply nth_error_Some; congruence); lia).
      assert (Hrn : forall i, In i row -> i < n) by (intros i Hi; apply Hn; eapply Permutation_in; eauto).
      destruct (cut_separates F leb Hrefl X n n_dim Ht dim row k (Hs dim row Hrow) Hd Hrn Hk) as [S1 S2].
      destruct (cut_separates F' leb' Hrefl' X' n n_dim Ht' dim row k (Hs' dim row Hrow) Hd Hrn In') as [S1' S2'].
      set (v := f_mid F (X (nth (k - 1) row 0) dim) (X (nth k row 0) dim)) in *.
      set (v' := f_mid F' (X' (nth (k - 1) row 0) dim) (X' (nth k row 0) dim)) in *.
      assert (Q : forall (f g : nat -> bool), filter f row = filter g row -> forall r, In r rows -> f r = g r).
      { intros f g E r Hr. apply (Permutation_in r (Permutation_sym Hpr)) in Hr.
        destruct (f r) eqn:Ef; destruct (g r) eqn:Eg; auto.
        - assert (In r (filter g row)) by (rewrite <- E; apply filter_In; auto). apply filter_In in H. destruct H. congruence.
        - assert (In r (filter f row)) by (rewrite E; apply filter_In; auto). apply filter_In in H. destruct H. congruence. }
      destruct (firstn_facts row k row (Permutation_refl _) Hnd) as (_ & I1 & _ & I2).
      constructor.
      * assert (Hlen : k < length row) by lia.
        unfold dim_positions in In'. apply split_positions_In in In' as (a & b & _ & Ea & Eb & Hg). unfold gather in Ea, Eb.
        assert (Ea' : a = X' (nth (k - 1) row 0) dim).
        { rewrite nth_error_map in Ea. destruct (nth_error row (k - 1)) eqn:E; [|discriminate].
          rewrite (nth_error_nth _ _ 0 E). simpl in Ea. congruence. }
        assert (Eb' : b = X' (nth k row 0) dim).
        { rewrite nth_error_map in Eb. destruct (nth_error row k) eqn:E; [|discriminate].
          rewrite (nth_error_nth _ _ 0 E). simpl in Eb. congruence. }
        subst a b.
        exists (nth (k - 1) row 0), (nth k row 0).
        split; [apply (Permutation_in _ Hpr), nth_In; lia|]. split; [apply (Permutation_in _ Hpr), nth_In; lia|].
        split; [reflexivity|]. split; [reflexivity|].
        assert (Sle : forall i j, i <= j -> j < length row -> leb' (X' (nth i row 0) dim) (X' (nth j row 0) dim) = true).
        { intros i j Hij Hj. apply (sorted_le' leb' Hrefl' X' dim row i j (Hs' dim row Hrow)); auto. }
        split; [apply Sle; lia|]. split; [exact Hg|].
        intros q Hq. apply (Permutation_in _ (Permutation_sym Hpr)) in Hq. apply (In_nth _ _ 0) in Hq as (j & Hj & <-).
        destruct (le_lt_dec k j); [right|left]; apply Sle; lia.
      * intros r Hr. unfold pgo1, pgo2. cbn [sd_dim sd_val].
        split; [apply (Q (fun i => f_lt F (X i dim) v) (fun i => f_lt F' (X' i dim) v'))|apply (Q (fun i => f_ge F (X i dim) v) (fun i => f_ge F' (X' i dim) v'))];
          auto; congruence.
      * apply twin_same with (rows := firstn k row); [apply IH1; auto|].
        rewrite <- S1. intros r. rewrite !filter_In. split; intros [Hr E]; split; auto; [eapply Permutation_in; [symmetry; exact Hpr|exact Hr]|eapply Permutation_in; eauto].
      * apply twin_same with (rows := skipn k row); [apply IH2; auto|].
        rewrite <- S2. intros r. rewrite !filter_In. split; intros [Hr E]; split; auto; [eapply Permutation_in; [symmetry; exact Hpr|exact Hr]|eapply Permutation_in; eauto].
  - intros lvl p rows idxs sub t Hl Hm Hsub Hf IH t' H' Hle Hn Hs Hs'.
    inversion H' as [? ? ? ? sub' ? L' M' Ss' F0|? ? ? ? W' O']; subst.
    + apply IH; auto; [rewrite map_length; auto| |]; apply sorted_idx_filter; auto.
    + exfalso. destruct O' as [O'|O']; [lia|congruence].
  - intros lvl p rows idxs Hwf Hor t' H' Hle Hn Hs Hs'.
    inversion H' as [? ? ? ? sub' ? L' M' Ss' F0|? ? ? ? W' O']; subst.
    + exfalso. destruct Hor as [O'|O']; [lia|congruence].
    + constructor.
Qed.
End Twin.

Lemma StronglySorted_weaken {A} (R1 R2 : A -> A -> Prop) l : (forall a b, In a l -> In b l -> R1 a b -> R2 a b) ->
  StronglySorted R1 l -> StronglySorted R2 l.
Proof.
  intros H S. induction S as [|a l S IH Hf]; constructor.
  - apply IH. intros u v Hu Hv. apply H; right; auto.
  - rewrite Forall_forall in *. intros b Hb. apply H; [left|right|]; auto.
Qed.

Lemma real_thr prec srt' X n n_dim : 0 <= prec -> threshold_ok (feat_R prec srt') Rleb X n n_dim.
Proof.
  intros Hp d i j r _ _ _ _ Hle Hg. cbn [f_gap f_lt f_ge f_mid feat_R] in *. apply Rleb_true in Hle. apply Rgtb_true in Hg.
  assert (X i d < X j d) by (destruct (Req_dec (X i d) (X j d)) as [E|]; [rewrite E in Hg; replace (X j d - X j d) with 0 in Hg by lra; rewrite Rabs_R0 in Hg; lra|lra]).
  split; intros Hr; apply Rleb_true in Hr; rewrite ?Rltb_true, ?Rltb_false, ?Rgeb_true, ?Rgeb_false; split; lra.
Qed.

(** With separable values the float64 tree and the exact tree send every training row the same way at every node. *)
Theorem fit_twin {Y P S} p srt srt' (L : lik Y P S) same do_prune lvl pa (d : tset float64 Y) t :
  is_finite p = true -> B2R p = 0 -> sorts fleb srt -> tset_ok d -> finite_entries 53 1024 (ts_X d) (ts_n d) (ts_dim d) ->
  separable 53 1024 prec64_pos prec64_lt p (ts_X d) (ts_n d) (ts_dim d) ->
  (forall c, (c < ts_dim d)%nat -> srt' (fun i => B2R (ts_X d i c)) (ts_n d) = srt (fun i => ts_X d i c) (ts_n d)) ->
  perp_fit (feat_f p srt) L same do_prune lvl pa d = Ok t ->
  exists t', perp_fit (feat_R 0 srt') L same do_prune lvl pa (B2R_set d) = Ok t' /\
    twin (feat_f p srt) (feat_R 0 srt') (ts_X d) (ts_X (B2R_set d)) Rleb (seq 0 (ts_n d)) t t'.
Proof.
  intros Fp Ep Hs Hd Hfin Hsep Hc E.
  assert (Hp : permutes srt) by (intros key m; apply Hs).
  destruct (float_same p srt srt' L same do_prune lvl pa d t Fp Ep Hp Hd Hfin Hc E) as (t' & E' & _).
  exists t'. split; [exact E'|].
  destruct (perp_fit_inv _ _ _ _ _ _ _ _ E) as (t0 & E0 & -> & _).
  destruct (perp_fit_inv _ _ _ _ _ _ _ _ E') as (t0' & E0' & -> & _).
  destruct Hd as (Hn & Hn64 & Hdim & Hnm). unfold pfit_root in E0, E0'. cbn [B2R_set ts_n ts_dim ts_X ts_y ts_names] in *.
  destruct (root_indices_wf' (feat_f p srt) (ts_X d) (ts_n d) (ts_dim d) Hp Hn64) as [Hwf Hlen]; [lia|].
  assert (Hr : root_indices (feat_R 0 srt') (fun i c => B2R (ts_X d i c)) (ts_n d) (ts_dim d) = root_indices (feat_f p srt) (ts_X d) (ts_n d) (ts_dim d)).
  { unfold root_indices. apply map_ext_in. intros c Hin. apply in_seq in Hin. f_equal. apply Hc. lia. }
  rewrite Hr in E0'.
  apply pfit_nfit with (rows := seq 0 (ts_n d)) in E0; auto; [|rewrite Hlen; lia|rewrite seq_length; lia].
  apply pfit_nfit with (rows := seq 0 (ts_n d)) in E0'; auto; [|rewrite Hlen; lia|rewrite seq_length; lia].
  assert (Hsi : sorted_idx fleb (ts_X d) (root_indices (feat_f p srt) (ts_X d) (ts_n d) (ts_dim d)) /\
                sorted_idx Rleb (fun i c => B2R (ts_X d i c)) (root_indices (feat_f p srt) (ts_X d) (ts_n d) (ts_dim d))).
  { assert (G : forall c row, nth_error (root_indices (feat_f p srt) (ts_X d) (ts_n d) (ts_dim d)) c = Some row ->
       (c < ts_dim d)%nat /\ row = srt (fun i => ts_X d i c) (ts_n d)).
    { intros c row Ec. unfold root_indices in Ec. rewrite nth_error_map in Ec.
      destruct (nth_error (seq 0 (ts_dim d)) c) as [c'|] eqn:Ec'; [|discriminate]. simpl in Ec. injection Ec as <-.
      apply nth_error_nth with (d := 0%nat) in Ec' as Hc'. assert (c < ts_dim d)%nat by (rewrite <- (seq_length (ts_dim d) 0); apply nth_error_Some; congruence).
      rewrite seq_nth in Hc' by auto. simpl in Hc'. subst c'. split; auto.
      rewrite (map_ext_in _ (fun i => i)); [apply map_id|].
      intros i Hi. apply store_index_id; auto. eapply Permutation_in in Hi; [|apply Hs]. apply in_seq in Hi. lia. }
    split; intros c row Ec; destruct (G c row Ec) as [Hcd ->]; [apply Hs|].
    eapply StronglySorted_weaken; [|apply (proj2 (Hs (fun i => ts_X d i c) (ts_n d)))].
    intros i j Hi Hj Hle. apply (Permutation_in i (proj1 (Hs _ _))) in Hi. apply (Permutation_in j (proj1 (Hs _ _))) in Hj.
    apply in_seq in Hi, Hj. apply Rleb_true. apply (fleb_finite 53 1024); auto; apply Hfin; lia. }
  assert (Hz : Bltb p (B754_zero false) = false) by (rewrite Bltb_correct by auto; apply Rlt_bool_false; simpl; lra).
  assert (T0 : twin (feat_f p srt) (feat_R 0 srt') (ts_X d) (fun i c => B2R (ts_X d i c)) Rleb (seq 0 (ts_n d)) t0 t0').
  { apply (proj1 (nfit_twin (feat_f p srt) (feat_R 0 srt') L (ts_X d) (fun i c => B2R (ts_X d i c)) (ts_y d) (ts_names d) (ts_n d) (ts_dim d) Rleb fleb
      (fleb_refl 53 1024) ltac:(intros a; apply Rleb_true; lra) (float_threshold 53 1024 _ _ ltac:(lia) p srt _ _ _ Hz Hfin Hsep) (real_thr 0 srt' _ _ _ (Rle_refl 0))
      ltac:(intros c i j Hcd Hi Hj; cbn [f_gap feat_f feat_R]; apply gap0; auto))) with (1 := E0) (2 := E0'); try (rewrite Hlen; lia); try apply Hsi.
    intros i Hi. apply in_seq in Hi. lia. }
  destruct do_prune; [apply twin_prune|]; exact T0.
Qed.

(** The training rows are sent to the same leaves. *)
Lemma twin_reaches {S P} p srt srt' (X : nat -> nat -> float64) (X' : nat -> nat -> R) (t : tree (pdesc string float64) S P) : forall rows t',
  twin (feat_f p srt) (feat_R 0 srt') X X' Rleb rows t t' -> forall r, In r rows ->
  exists i, reaches (fun s => f_left X s r = true) (fun s => f_right X s r = true) t i /\
    reaches (fun s => goes_left X' s r = true) (fun s => goes_right X' s r = true) t' i.
Proof.
  induction t as [i|i sd a b c1 IH1 c2 IH2]; intros rows t' H r Hr; inversion H as [|? ? d nm v v' ? ? ? ? c1' c2' Hbt Hg H1 H2]; subst.
  - exists i. split; constructor.
  - destruct (Hg r Hr) as [E1 E2]. cbn in E1, E2. destruct (Rltb (X' r d) v') eqn:G.
    + destruct (IH1 _ _ H1 r) as (l & R1 & R2); [apply filter_In; auto|]. exists l. split; apply reaches_left; auto.
    + assert (G2 : Rgeb (X' r d) v' = true). { unfold Rltb, Rgeb in *. destruct Rlt_dec; [discriminate|]. apply Rleb_true. lra. }
      rewrite G2 in E2. destruct (IH2 _ _ H2 r) as (l & R1 & R2); [apply filter_In; auto|]. exists l. split; apply reaches_right; auto.
Qed.
Theorem fit_same_leaves {Y P S} p srt srt' (L : lik Y P S) same do_prune lvl pa (d : tset float64 Y) t :
  is_finite p = true -> B2R p = 0 -> sorts fleb srt -> tset_ok d -> finite_entries 53 1024 (ts_X d) (ts_n d) (ts_dim d) ->
  separable 53 1024 prec64_pos prec64_lt p (ts_X d) (ts_n d) (ts_dim d) ->
  (forall c, (c < ts_dim d)%nat -> srt' (fun i => B2R (ts_X d i c)) (ts_n d) = srt (fun i => ts_X d i c) (ts_n d)) ->
  perp_fit (feat_f p srt) L same do_prune lvl pa d = Ok t ->
  exists t', perp_fit (feat_R 0 srt') L same do_prune lvl pa (B2R_set d) = Ok t' /\
    forall r, (r < ts_n d)%nat -> exists i, reaches (fun s => f_left (ts_X d) s r = true) (fun s => f_right (ts_X d) s r = true) t i /\
      reaches (fun s => goes_left (ts_X (B2R_set d)) s r = true) (fun s => goes_right (ts_X (B2R_set d)) s r = true) t' i.
Proof.
  intros H1 H2 H3 H4 H5 H6 H7 E. destruct (fit_twin p srt srt' L same do_prune lvl pa d t H1 H2 H3 H4 H5 H6 H7 E) as (t' & E' & Ht).
  exists t'. split; [exact E'|]. intros r Hr. apply (twin_reaches p srt srt' _ _ t _ t' Ht r). apply in_seq. lia.
Qed.
(** A classification tree predicts the same for them. *)
Theorem fclf_same_training p srt srt' h (d : tset float64 R) t :
  is_finite p = true -> B2R p = 0 -> sorts fleb srt -> tset_ok d -> finite_entries 53 1024 (ts_X d) (ts_n d) (ts_dim d) ->
  separable 53 1024 prec64_pos prec64_lt p (ts_X d) (ts_n d) (ts_dim d) ->
  (forall c, (c < ts_dim d)%nat -> srt' (fun i => B2R (ts_X d i c)) (ts_n d) = srt (fun i => ts_X d i c) (ts_n d)) ->
  fclf_fit srt p h d = Ok t ->
  exists t', clf_fit srt' (mkHyper (h_pp h) (h_prior h) (h_delta h) (h_prune h) 0) (B2R_set d) = Ok t' /\
    fclf_predict t (ts_X d) (ts_n d) = clf_predict t' (ts_X (B2R_set d)) (ts_n d) /\
    fclf_predict_proba t (ts_X d) (ts_n d) = clf_predict_proba t' (ts_X (B2R_set d)) (ts_n d).
Proof.
  intros H1 H2 H3 H4 H5 H6 H7 E. destruct (fit_twin p srt srt' _ _ _ _ _ d t H1 H2 H3 H4 H5 H6 H7 E) as (t' & E' & Ht).
  exists t'. split; [exact E'|]. unfold fclf_predict, clf_predict, fclf_predict_proba, clf_predict_proba. rewrite !predict_rows_spec.
  split; apply map_ext_in; intros r Hr;
    match goal with |- match ?a with _ => _ end = match ?b with _ => _ end => replace a with b; [reflexivity|symmetry; exact (twin_lookup _ _ _ _ _ _ t _ t' Ht r Hr)] end.
Qed.
