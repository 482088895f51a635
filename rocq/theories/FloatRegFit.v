(** * FloatRegFit: regression trees fitted entirely in float64 against the exact ones. *)
From Coq Require Import Reals Lra Permutation Psatz Sorted String.
From Flocq Require Import Core BinarySingleNaN.
From Verif Require Import Prelude Lists Tree Perp RealOps Gamma Reg Api Spec PruneProofs PredictProofs FitProofs OptSpec OptProofs OptFit OptNodes
  ApiSpec ApiProofs ClfSpec ClfProofs RegSpec RegProofs SplitFacts NodeFacts Routing Sim FloatFeat FloatProofs NumApi NumWitness NumLemmas FloatReg FloatSum FloatNG FloatNGFit FitPrior
  FloatClfSum FloatClfErr FloatOracle Stable FloatSame StableFit StableGen FloatRegErr FloatRegScore.
Local Open Scope R_scope.

(** ** Posteriors *)
Section Nodes.
Variable fsum : list float64 -> float64.
Variables (flog fgammaln : float64 -> float64) (fpow : float64 -> nat -> float64) (f2pi pp delta : float64).
Notation L := (freg_lik fsum flog fgammaln fpow f2pi pp delta).

(** The node holds its rows, and its posterior is close to the exact posterior of its rows. *)
Definition node_close {D S} (N : nat) (M : R) (prior : fng) (y : nat -> float64) (rows : list nat) (t : tree D S fng) : Prop :=
  rows <> [] /\ i_n_data (info t) = length rows /\
  post_close N M prior (i_post (info t)) (ng_update 1 (ng_val prior) (map (fun i => B2R (y i)) rows)).

Lemma post_of_rows (ys : list float64) prior N M : (forall l, sum_of l (fsum l)) -> INR N <= b2 20 -> 1 <= M <= b2 300 -> sized_prior M prior ->
  ys <> [] -> (length ys <= N)%nat -> Forall (sized M) ys ->
  post_close N M prior (freg_posterior fsum f_one prior ys) (ng_update 1 (ng_val prior) (map B2R ys)).
Proof.
  intros Hsum HN HM Hp Hne Hl Hy. unfold freg_posterior. replace (Beqb f_one f_zero) with false by reflexivity.
  destruct (whole_close N M HN HM fsum ys Hsum Hne Hl Hy) as [H1 H2].
  apply (sums_close N M prior HN HM Hp ys _ _ Hne Hl H1 H2).
Qed.

Lemma rows_targets {A} M (d : tset A float64) r : (forall i, (i < ts_n d)%nat -> sized M (ts_y d i)) -> (forall i, In i r -> (i < ts_n d)%nat) -> Forall (sized M) (map (ts_y d) r).
Proof. intros H Hr. apply Forall_map, Forall_forall. auto. Qed.

Theorem nodes_close A V (F : feat A V) leb same do_prune lvl pa (d : tset A float64) prior M t :
  (forall l, sum_of l (fsum l)) -> Beqb delta f_zero = true -> freg_get_prior pa (ts_n d) (ts_dim d) = prior ->
  INR (ts_n d) <= b2 20 -> 1 <= M <= b2 300 -> sized_prior M prior -> (forall i, (i < ts_n d)%nat -> sized M (ts_y d i)) ->
  (forall a, leb a a = true) -> sorts leb (f_argsort F) -> tset_ok d -> threshold_ok F leb (ts_X d) (ts_n d) (ts_dim d) ->
  perp_fit F L same do_prune lvl pa d = Ok t ->
  nodes_ok (pgo1 F (ts_X d)) (pgo2 F (ts_X d)) (node_close (ts_n d) M prior (ts_y d)) (seq 0 (ts_n d)) t.
Proof.
  intros Hsum Hdelta Hpa HN HM Hp Hy Hrefl Hs Hd Hthr E.
  pose proof (fit_routed_prior F L prior (fun _ _ => eq_refl) (fun ys => ltac:(cbn [freg_lik l_child_prior]; rewrite Hdelta; reflexivity)) same leb do_prune lvl pa d t Hrefl Hs Hd Hthr Hpa E) as H.
  assert (Hsub : forall i, In i (seq 0 (ts_n d)) -> (i < ts_n d)%nat) by (intros i Hi; apply in_seq in Hi; lia).
  assert (Hnd : NoDup (seq 0 (ts_n d))) by apply seq_NoDup.
  revert Hsub Hnd H. clear E. generalize (seq 0 (ts_n d)). intros rows.
  revert rows. induction t as [i|i s a b c1 IH1 c2 IH2]; intros rows Hsub Hnd H.
  - split; [|exact I]. destruct H as [(H1 & H2 & r & Hr & Hpo) _]. unfold node_close. split; [exact H1|]. split; [exact H2|]. rewrite Hpo. cbn [l_post freg_lik].
    rewrite <- (ng_update_perm 1 _ (map (fun i => B2R (ts_y d i)) r)) by (apply Permutation_map; exact Hr). rewrite <- (map_map (ts_y d) (B2R (prec:=53) (emax:=1024))).
    assert (Hr' : forall i, In i r -> (i < ts_n d)%nat) by (intros j Hj; apply Hsub; eapply Permutation_in; eauto).
    apply post_of_rows; auto.
    + intros E0. apply map_eq_nil in E0. subst r. apply Permutation_nil in Hr. congruence.
    + rewrite map_length, (Permutation_length Hr). rewrite <- (seq_length (ts_n d) 0). apply NoDup_incl_length; [exact Hnd|]. intros j Hj. apply in_seq. specialize (Hsub j Hj). lia.
    + apply rows_targets; auto.
  - cbn [nodes_ok] in *. destruct H as [(H1 & H2 & r & Hr & Hpo) [K1 K2]]. split.
    + unfold node_close. split; [exact H1|]. split; [exact H2|]. rewrite Hpo. cbn [l_post freg_lik].
      rewrite <- (ng_update_perm 1 _ (map (fun i => B2R (ts_y d i)) r)) by (apply Permutation_map; exact Hr). rewrite <- (map_map (ts_y d) (B2R (prec:=53) (emax:=1024))).
      assert (Hr' : forall i, In i r -> (i < ts_n d)%nat) by (intros j Hj; apply Hsub; eapply Permutation_in; eauto).
      apply post_of_rows; auto.
      * intros E0. apply map_eq_nil in E0. subst r. apply Permutation_nil in Hr. congruence.
      * rewrite map_length, (Permutation_length Hr). rewrite <- (seq_length (ts_n d) 0). apply NoDup_incl_length; [exact Hnd|]. intros j Hj. apply in_seq. specialize (Hsub j Hj). lia.
      * apply rows_targets; auto.
    + split; [apply IH1|apply IH2]; auto; try (intros j Hj; apply filter_In in Hj as [Hj _]; auto); apply NoDup_filter; auto.
Qed.
End Nodes.

Lemma cuts_len a m : forall ks, StronglySorted lt ks -> (forall x, In x ks -> (a <= x < m)%nat) -> (length ks <= m - a)%nat.
Proof.
  intros ks. revert a. induction ks as [|x l IH]; intros a Hs Hb; [simpl; lia|]. inversion Hs as [|? ? Hs' Hx]; subst.
  rewrite Forall_forall in Hx. pose proof (Hb x (or_introl eq_refl)).
  assert (H1 : (length l <= m - (1 + x))%nat). { apply IH; [exact Hs'|]. intros z Hz. specialize (Hx z Hz). specialize (Hb z (or_intror Hz)). lia. }
  simpl. lia.
Qed.

(** ** The scores *)
Definition reg_tau (el eps eg G : R) (N : nat) (M : R) (p : fng) : R :=
  el + 4 * eg + 8 * reg_A N p * eps + 4 * reg_A N p * reg_rb N M p + 512 * u53 * (G + 1000 * reg_A N p).

(** A float64 regression problem: no delta, targets of size at most [M], library functions with known errors. *)
Record reg64_setting {A} (fsum : list float64 -> float64) (flog fgammaln : float64 -> float64)
    (fpow : float64 -> nat -> float64) (f2pi pp delta : float64) (depth : nat) (prior : fng) (M el eps eg G : R) (d : tset A float64) : Prop := {
  gs_set : tset_ok d;
  gs_delta : Beqb delta f_zero = true;
  gs_sum : forall l, sum_of l (fsum l);
  gs_n : INR (ts_n d) <= b2 20;
  gs_M : 1 <= M <= b2 300;
  gs_prior : sized_prior M prior;
  gs_y : forall i, (i < ts_n d)%nat -> sized M (ts_y d i);
  gs_rb : reg_rb (ts_n d) M prior <= / 2;
  gs_logs : logs_within flog fpow pp (ts_n d) (ts_dim d) depth el 1000;
  gs_log : log_accurate flog eps /\ eps <= 1;
  gs_gam : gammaln_halves fgammaln (B2R (fn_alpha prior)) (ts_n d) eg G /\ G <= b2 900;
  gs_2pi : is_finite f2pi = true /\ Rabs (B2R f2pi - 2 * PI) <= 8 * u53 }.

Section Law.
Variable fsum : list float64 -> float64.
Variables (flog fgammaln : float64 -> float64) (fpow : float64 -> nat -> float64) (f2pi pp delta : float64).
Variables (depth : nat) (prior : fng) (M el eps eg G : R).
Variables (A : Type) (d : tset A float64).
Notation L := (freg_lik fsum flog fgammaln fpow f2pi pp delta).
Notation T := (reg_tgt (B2R pp) 0).
Hypothesis Hset : reg64_setting fsum flog fgammaln fpow f2pi pp delta depth prior M el eps eg G d.
Notation n := (ts_n d).
Notation n_dim := (ts_dim d).
Notation y := (ts_y d).
Definition val_of (y : nat -> float64) (i : nat) : R := B2R (y i).
Notation yv := (val_of y).
Notation tau := (reg_tau el eps eg G n M prior).
Notation AA := (reg_A n prior).
Definition fng_rel (prior : fng) (p : ng) (p' : fng) : Prop := p = ng_val prior /\ p' = prior.

Lemma AA_pos : 1 <= AA.
Proof.
  destruct Hset as [_ _ _ _ _ Hp _ _ _ _ _ _]. destruct Hp as (_ & _ & _ & _ & _ & _ & Ha & _). pose proof (b2_pos (-300)). pose proof (pos_INR n). unfold reg_A. lra.
Qed.
Lemma eps_pos : 0 <= eps.
Proof.
  destruct Hset as [_ _ _ _ _ _ _ _ _ [Hl _] _ _]. destruct one_ok as [F1 V1]. destruct (Hl f_one F1 ltac:(rewrite V1; lra)) as [_ E].
  pose proof (Rabs_pos (B2R (flog f_one) - ln (B2R f_one))). lra.
Qed.
Lemma rb_pos : 0 <= reg_rb n M prior.
Proof.
  destruct Hset as [_ _ _ _ HM Hp _ _ _ _ _ _]. destruct Hp as (_ & _ & _ & _ & _ & Hk & _ & Hb). pose proof (b2_pos (-300)). pose proof upos.
  unfold reg_rb, reg_w. pose proof (pos_INR n). apply Rmult_le_pos; [apply Rmult_le_pos; [lra|]; repeat apply Rmult_le_pos; lra|].
  assert (0 <= (1 + 2 * B2R (fn_kappa prior)) * (M * M) / B2R (fn_beta prior)); [|lra]. apply Rmult_le_pos; [apply Rmult_le_pos; nra|left; apply Rinv_0_lt_compat; lra].
Qed.
Lemma gam_pos : 0 <= eg /\ 0 <= G.
Proof.
  destruct Hset as [_ _ _ _ _ Hp _ _ _ _ [Hg _] _]. destruct Hp as (_ & _ & Fa & _).
  assert (E0 : B2R (fn_alpha prior) + INR 0 / 2 = B2R (fn_alpha prior)) by (simpl; field).
  pose proof (Hg 0%nat (fn_alpha prior) ltac:(lia) Fa ltac:(rewrite E0; symmetry; apply RN64_fmt, fmt_B2R)) as Hw. apply within_pos in Hw. exact Hw.
Qed.
Lemma el_pos : 0 <= el.
Proof. destruct (gs_logs _ _ _ _ _ _ _ _ _ _ _ _ _ _ _ Hset 0%nat ltac:(lia)) as [Hw _]. apply within_pos in Hw. lra. Qed.
Lemma tau_pos : 0 <= tau.
Proof.
  pose proof AA_pos. pose proof eps_pos. pose proof rb_pos. pose proof gam_pos. pose proof el_pos. pose proof upos. unfold reg_tau.
  assert (0 <= AA * eps) by (apply Rmult_le_pos; lra). assert (0 <= AA * reg_rb n M prior) by (apply Rmult_le_pos; lra).
  assert (0 <= u53 * (G + 1000 * AA)) by (apply Rmult_le_pos; lra). lra.
Qed.
Lemma good_len rows : good n rows -> (forall i, In i rows -> (i < n)%nat) /\ (length rows <= n)%nat.
Proof.
  intros (H1 & _ & H3). split; [exact H3|]. rewrite <- (seq_length n 0). apply NoDup_incl_length; [exact H1|].
  intros i Hi. apply in_seq. specialize (H3 i Hi). lia.
Qed.
Lemma size_ok : 64 * (G + 1000 * AA) + 1000 <= b2 950 /\ 1000 <= 1000 * AA.
Proof.
  pose proof AA_pos as P1. destruct Hset as [_ _ _ HN _ Hp _ _ _ _ [_ HG] _]. destruct Hp as (_ & _ & _ & _ & _ & _ & Ha & _). split; [|lra].
  change (b2 950) with (b2 (7 + 943)). rewrite bpow_plus. change (b2 7) with 128.
  assert (b2 900 <= b2 943) by (apply b2_le; lia).
  assert (1000 * AA + 1000 <= b2 943).
  { apply Rle_trans with (b2 50); [|apply b2_le; lia]. unfold reg_A. change (b2 30) with 1073741824 in Ha. change (b2 20) with 1048576 in HN. change (b2 50) with 1125899906842624. lra. }
  lra.
Qed.

Lemma stop_close lvl rows : good n rows -> (lvl <= depth)%nat ->
  within tau (b2 960) (freg_no_split fsum flog fgammaln fpow f2pi pp lvl prior (map y rows)) (t_stop T lvl (ng_val prior) (map yv rows)).
Proof.
  intros Hg Hl. destruct (good_len rows Hg) as [Hr Hn]. destruct size_ok as [Z1 Z2]. pose proof AA_pos. pose proof eps_pos. pose proof rb_pos. pose proof gam_pos. pose proof upos as Hu.
  pose proof Hset as [J1 J2 J3 J4 J5 J6 J7 J8 J9 [J10 J11] [J12 J13] J14]. destruct (J9 lvl Hl) as [W1 _].
  assert (Hne : map y rows <> []) by (destruct Hg as (_ & G0 & _); intros E; apply map_eq_nil in E; congruence).
  assert (Hyr : Forall (sized M) (map y rows)) by (apply rows_targets; auto).
  destruct (whole_close n M J4 J5 fsum (map y rows) J3 Hne ltac:(rewrite map_length; exact Hn) Hyr) as [S1 S2].
  pose proof (side_score flog fgammaln f2pi n M eps eg G prior J4 J5 J6 J10 J11 J12 J13 J14 J8 (map y rows) _ _ Hne ltac:(rewrite map_length; exact Hn) S1 S2) as W2.
  cbn [t_stop reg_tgt]. replace (map yv rows) with (map B2R (map y rows)) by apply map_map.
  unfold freg_no_split. unfold freg_side in W2.
  assert (0 <= AA * eps) by (apply Rmult_le_pos; lra). assert (0 <= AA * reg_rb n M prior) by (apply Rmult_le_pos; lra).
  assert (0 <= u53 * (G + 1000 * AA)) by (apply Rmult_le_pos; lra).
  assert (u53 * 1000 <= u53 * (1000 * AA)) by (apply Rmult_le_compat_l; lra). assert (0 <= u53 * G) by (apply Rmult_le_pos; lra).
  eapply within_weaken; [apply within_add; [exact W1|exact W2|]| |].
  - apply Rle_trans with (b2 950); [lra|apply b2_le; lia].
  - unfold reg_tau, reg_side_err. lra.
  - apply Rle_trans with (b2 (1 + 950)); [rewrite bpow_plus; change (b2 1) with 2; lra|apply b2_le; lia].
Qed.

Lemma cut_close lvl m rows k : good n rows -> (lvl <= depth)%nat -> (1 <= m < n)%nat -> (1 <= k < length rows)%nat ->
  within tau (b2 960)
    (f_add (f_add (flog (f_div (fpow pp (1 + lvl)%nat) (f_nat (m * n_dim)%nat)))
       (freg_side flog fgammaln f2pi prior k (nth (k - 1) (f_cumsum (map y rows)) f_zero) (nth (k - 1) (f_cumsum (map f_sq (removelast (map y rows)))) f_zero)))
       (freg_side flog fgammaln f2pi prior (length (map y rows) - k) (f_sub (fsum (map y rows)) (nth (k - 1) (f_cumsum (map y rows)) f_zero))
          (f_sub (fsum (map f_sq (map y rows))) (nth (k - 1) (f_cumsum (map f_sq (removelast (map y rows)))) f_zero))))
    (t_cut T lvl (ng_val prior) n_dim m (map yv (firstn k rows)) (map yv (skipn k rows))).
Proof.
  intros Hg Hl Hm Hk. destruct (good_len rows Hg) as [Hr Hn]. destruct size_ok as [Z1 Z2]. pose proof AA_pos. pose proof eps_pos. pose proof rb_pos. pose proof gam_pos. pose proof upos as Hu.
  pose proof Hset as [J1 J2 J3 J4 J5 J6 J7 J8 J9 [J10 J11] [J12 J13] J14]. destruct (J9 lvl Hl) as [_ W0]. specialize (W0 m Hm).
  assert (Hyr : Forall (sized M) (map y rows)) by (apply rows_targets; auto).
  set (ys := map y rows) in *. assert (Ly : length ys = length rows) by apply map_length.
  destruct (split_close n M J4 J5 fsum ys k J3 ltac:(lia) ltac:(lia) Hyr) as [[S1 S2] [S3 S4]].
  assert (L1 : length (firstn k ys) = k) by (rewrite firstn_length; lia). assert (L2 : length (skipn k ys) = (length ys - k)%nat) by apply skipn_length.
  assert (N1 : firstn k ys <> []) by (intros E; rewrite E in L1; simpl in L1; lia). assert (N2 : skipn k ys <> []) by (intros E; rewrite E in L2; simpl in L2; lia).
  pose proof (side_score flog fgammaln f2pi n M eps eg G prior J4 J5 J6 J10 J11 J12 J13 J14 J8 (firstn k ys) (nth (k - 1) (f_cumsum ys) f_zero) (nth (k - 1) (f_cumsum (map f_sq (removelast ys))) f_zero) N1 ltac:(lia)) as W1.
  rewrite L1 in W1. specialize (W1 S1 S2).
  pose proof (side_score flog fgammaln f2pi n M eps eg G prior J4 J5 J6 J10 J11 J12 J13 J14 J8 (skipn k ys) (f_sub (fsum ys) (nth (k - 1) (f_cumsum ys) f_zero)) (f_sub (fsum (map f_sq ys)) (nth (k - 1) (f_cumsum (map f_sq (removelast ys))) f_zero)) N2 ltac:(lia)) as W2.
  rewrite L2 in W2. specialize (W2 S3 S4).
  cbn [t_cut reg_tgt].
  replace (map yv (firstn k rows)) with (map B2R (firstn k ys)) by (unfold ys; rewrite firstn_map, map_map; reflexivity).
  replace (map yv (skipn k rows)) with (map B2R (skipn k ys)) by (unfold ys; rewrite skipn_map, map_map; reflexivity).
  assert (0 <= AA * eps) by (apply Rmult_le_pos; lra). assert (0 <= AA * reg_rb n M prior) by (apply Rmult_le_pos; lra).
  assert (0 <= u53 * (G + 1000 * AA)) by (apply Rmult_le_pos; lra).
  assert (u53 * 1000 <= u53 * (1000 * AA)) by (apply Rmult_le_compat_l; lra). assert (0 <= u53 * G) by (apply Rmult_le_pos; lra).
  eapply within_weaken; [apply within_add; [apply within_add; [exact W0|exact W1|]|exact W2|]| |].
  - apply Rle_trans with (b2 950); [lra|apply b2_le; lia].
  - apply Rle_trans with (b2 (2 + 950)); [rewrite bpow_plus; change (b2 2) with 4; lra|apply b2_le; lia].
  - unfold reg_tau, reg_side_err. lra.
  - apply Rle_trans with (b2 (3 + 950)); [rewrite bpow_plus; change (b2 3) with 8; lra|apply b2_le; lia].
Qed.

Lemma many_values rows : good n rows -> f_many (map y rows) = true <-> many (map yv rows).
Proof.
  intros Hg. destruct (good_len rows Hg) as [Hr _]. destruct rows as [|i l]; [destruct Hg as (_ & H & _); congruence|].
  assert (Eq : forall j, In j (i :: l) -> Beqb (y j) (y i) = true <-> yv j = yv i).
  { intros j Hj. destruct (gs_y _ _ _ _ _ _ _ _ _ _ _ _ _ _ _ Hset j (Hr j Hj)) as [F1 _]. destruct (gs_y _ _ _ _ _ _ _ _ _ _ _ _ _ _ _ Hset i (Hr i (or_introl eq_refl))) as [F2 _].
    rewrite Beqb_correct by auto. unfold val_of. destruct (Req_bool_spec (B2R (y j)) (B2R (y i))); split; intros; auto; congruence. }
  cbn [map f_many]. rewrite existsb_exists. split.
  - intros (b & Hb & Hn). apply in_map_iff in Hb as (j & <- & Hj). apply negb_true_iff in Hn. exists (yv i), (yv j).
    split; [left; reflexivity|]. split; [right; apply (in_map yv l j Hj)|]. intros E. symmetry in E. apply (Eq j (or_intror Hj)) in E. congruence.
  - intros (a & b & Ha & Hb & Hab).
    assert (H : forall v, In v (yv i :: map yv l) -> v <> yv i -> exists j, In j l /\ yv j <> yv i).
    { intros v [<-|Hv] Hne; [congruence|]. apply in_map_iff in Hv as (j & <- & Hj). exists j. split; auto. }
    assert (Hj : exists j, In j l /\ yv j <> yv i).
    { destruct (Req_EM_T a (yv i)) as [Ea|Ea]; [|apply (H a Ha Ea)]. apply (H b Hb). congruence. }
    destruct Hj as (j & Hj & Hne). exists (y j). split; [apply in_map; exact Hj|].
    destruct (Beqb (y j) (y i)) eqn:E; [|reflexivity]. apply (Eq j (or_intror Hj)) in E. congruence.
Qed.

Lemma update_0 ys : ng_update 0 (ng_val prior) ys = ng_val prior.
Proof.
  destruct (sized_pok M prior (gs_prior _ _ _ _ _ _ _ _ _ _ _ _ _ _ _ Hset)) as (Hk & _). unfold ng_update. destruct (ng_val prior) as [mu k a b]. cbn [ng_mu ng_kappa ng_alpha ng_beta] in *.
  f_equal; unfold Rdiv; rewrite ?Rmult_0_r, ?Rmult_0_l, ?Rplus_0_r; try ring. field. lra.
Qed.

Theorem freg_apx : apx_law T L yv y n n_dim depth B2R (fun a : float64 => is_finite a = true) tau (fng_rel prior).
Proof.
  constructor.
  - intros p p' m [-> ->]. split; reflexivity.
  - intros lvl p p' rows [-> ->] Hg Hl. destruct (stop_close lvl rows Hg Hl) as (H1 & _ & H3). split; assumption.
  - intros lvl p p' row ks [-> ->] Hg Hl Hne Hs Hr. cbn [l_split freg_lik]. unfold freg_split.
    destruct (good_len row Hg) as [Gr Gn].
    assert (Hm : (1 <= length ks < n)%nat).
    { pose proof (cuts_len 1 (length row) ks Hs Hr). destruct ks as [|k0 ks]; [congruence|]. specialize (Hr k0 (or_introl eq_refl)). simpl in *. lia. }
    set (m := length ks) in *. clearbody m. clear Hs Hne. induction ks as [|k0 ks IH]; cbn [map]; constructor.
    + destruct (cut_close lvl m row k0 Hg Hl Hm (Hr k0 (or_introl eq_refl))) as (H1 & _ & H3). split; assumption.
    + apply IH. intros k1 Hk1. apply Hr. right. exact Hk1.
  - intros a b Fa Fb. cbn [l_gt freg_lik]. rewrite Bltb_correct by auto. unfold Rgtb, Rltb.
    destruct (Rlt_bool_spec (B2R b) (B2R a)); destruct Rlt_dec; auto; lra.
  - intros l Hl. apply finite_argmax'. exact Hl.
  - intros p p' rows [-> ->] Hg. cbn [t_child_prior reg_tgt l_child_prior freg_lik]. rewrite (gs_delta _ _ _ _ _ _ _ _ _ _ _ _ _ _ _ Hset). split; [|reflexivity]. apply update_0.
  - intros rows Hg. apply many_values. exact Hg.
Qed.
End Law.

(** ** The default prior *)
Lemma default_values n n_dim : (Z.of_nat n < 2 ^ 21)%Z ->
  ng_val (freg_get_prior None n n_dim) = default_ng n /\ forall M, 1 <= M -> sized_prior M (freg_get_prior None n n_dim).
Proof.
  intros Hn. unfold freg_get_prior, default_ng. set (m := Nat.max 1 (n / 100)).
  assert (Hm : (1 <= Z.of_nat m < 2 ^ 22)%Z).
  { assert (n / 100 <= n)%nat by (apply Nat.div_le_upper_bound; lia). unfold m. lia. }
  destruct (int_nat m) as [Fm Em]; [lia|]. destruct (int_ok 2) as [F2 E2]; [lia|]. destruct one_ok as [F1 E1].
  assert (Rm : 1 <= IZR (Z.of_nat m)) by (apply IZR_le; lia). assert (Am : Rabs (IZR (Z.of_nat m)) <= b2 53) by (apply abs_int; lia).
  destruct (div_ok (f_nat m) (f_int 2) Fm) as [Fa Ea]; [rewrite E2; lra| |].
  { rewrite Em, E2. eapply abs_weak; [|apply abs_div_le; eauto]; [lia|lra]. }
  rewrite Em, E2 in Ea. rewrite RN64_fmt in Ea.
  2:{ replace (IZR (Z.of_nat m) / 2) with (IZR (Z.of_nat m) * b2 (-1)) by (change (b2 (-1)) with (/ 2); reflexivity). apply fmt64_scaled; lia. }
  destruct (div_ok (f_div (f_nat m) (f_int 2)) f_one Fa) as [Fb Eb]; [rewrite E1; lra| |].
  { rewrite Ea, E1. eapply abs_weak; [|apply abs_div_le; [apply abs_div_le; eauto; lra|lra]]. lia. }
  rewrite Ea, E1 in Eb. replace (IZR (Z.of_nat m) / 2 / 1) with (IZR (Z.of_nat m) / 2) in Eb by lra. rewrite RN64_fmt in Eb by (rewrite <- Ea; apply fmt_B2R).
  assert (Im : IZR (Z.of_nat m) <= b2 22) by (change (b2 22) with (IZR (2 ^ 22)); apply IZR_le; lia).
  split.
  - unfold ng_val. cbn [fn_mu fn_kappa fn_alpha fn_beta]. rewrite Ea, Eb, Em, INR_IZR_INZ. reflexivity.
  - intros M HM. unfold sized_prior. cbn [fn_mu fn_kappa fn_alpha fn_beta]. rewrite Ea, Eb, Em.
    pose proof (b2_le (-300) (-1) ltac:(lia)) as B0. change (b2 (-1)) with (/ 2) in B0. pose proof (b2_le 22 300 ltac:(lia)). pose proof (b2_le 22 30 ltac:(lia)). pose proof (b2_pos 22).
    change (B2R f_zero) with 0. rewrite Rabs_R0. split; [reflexivity|]. repeat split; auto; lra.
Qed.
Lemma prior_value pa n n_dim : (Z.of_nat n < 2 ^ 21)%Z ->
  match option_map ng_val pa with Some p => p | None => default_ng n end = ng_val (freg_get_prior pa n n_dim).
Proof. intros Hn. destruct pa as [p|]; [reflexivity|]. symmetry. apply (default_values n n_dim Hn). Qed.

(** The same problem over the reals. *)
Definition reg_exact_set {A} (d : tset A float64) (X : nat -> nat -> R) : tset R R :=
  mkSet (ts_n d) (ts_dim d) X (fun i => B2R (ts_y d i)) (ts_names d).

(** base.py:76-102 and regression.py:118-120: [predict] over float64 posteriors. *)
Definition freg_predict (t : tree (pdesc string float64) float64 fng) (Xq : nat -> nat -> float64) (m : nat) : list float64 :=
  predict_rows (f_left Xq) (f_right Xq) (fun i => freg_predict_leaf (i_post i)) t m f_zero.

(** In a copy a training row is looked up in leaves that hold the same rows. *)
Lemma copy_lookup {S P S' P' O O'} (X : nat -> nat -> float64) (val : ninfo P -> O) (val' : ninfo P' -> O') (Q : list nat -> ninfo P -> Prop) (Q' : list nat -> ninfo P' -> Prop)
    (te : tree (pdesc string R) S P) : forall rows (t : tree (pdesc string float64) S' P'), float_copy X rows te t ->
  nodes_ok (goes_left (fun i c => B2R (X i c))) (goes_right (fun i c => B2R (X i c))) (fun r u => Q r (info u)) rows te ->
  nodes_ok (f_left X) (f_right X) (fun r u => Q' r (info u)) rows t ->
  forall r, In r rows -> exists rs i i', In r rs /\ Q rs i /\ Q' rs i' /\
    lookup (goes_left (fun i c => B2R (X i c))) (goes_right (fun i c => B2R (X i c))) val te r = Some (val i) /\
    lookup (f_left X) (f_right X) val' t r = Some (val' i').
Proof.
  induction te as [i|i sd a b e1 IH1 e2 IH2]; intros rows t Hc; inversion Hc as [|? ? i' f nm v v' ? ? a' b' ? ? c1 c2 L1 L2 L3 Hmid Hg K1 K2]; subst.
  - intros [N0 _] [N0' _] r Hr. exists rows, i, i'. cbn [info] in *. repeat split; auto.
  - intros [N0 [N1 N2]] [N0' [N1' N2']] r Hr. destruct (Hg r Hr) as [G1 G2].
    assert (Hneg : Rgeb (B2R (X r f)) v = negb (Rltb (B2R (X r f)) v)).
    { unfold Rgeb. destruct (Rltb (B2R (X r f)) v) eqn:E1; cbn [negb].
      - apply Rltb_true in E1. apply Rgeb_false. lra.
      - apply Rltb_false in E1. apply Rgeb_true. lra. }
    assert (F1 : filter (f_left X (mkDesc f nm v')) rows = filter (goes_left (fun i c => B2R (X i c)) (mkDesc f nm v)) rows).
    { apply filter_ext_in. intros s Hs. apply (Hg s Hs). }
    assert (F2 : filter (f_right X (mkDesc f nm v')) rows = filter (goes_right (fun i c => B2R (X i c)) (mkDesc f nm v)) rows).
    { apply filter_ext_in. intros s Hs. apply (Hg s Hs). }
    rewrite <- F1 in N1. rewrite <- F2 in N2.
    cbn [lookup]. unfold f_left, f_right, goes_left, goes_right in *. cbn [sd_dim sd_val] in *. rewrite G1, G2, Hneg.
    destruct (Rltb (B2R (X r f)) v) eqn:E; cbn [negb].
    + destruct (IH1 _ _ K1 N1 N1' r ltac:(apply filter_In; split; [exact Hr|exact G1])) as (rs & j & j' & J1 & J2 & J3 & J4 & J5). exists rs, j, j'. rewrite J4, J5. auto.
    + destruct (IH2 _ _ K2 N2 N2' r ltac:(apply filter_In; split; [exact Hr|rewrite G2, Hneg; reflexivity])) as (rs & j & j' & J1 & J2 & J3 & J4 & J5). exists rs, j, j'. rewrite J4, J5. auto.
Qed.

(** Rows of the leaf that is reached. *)
Lemma leaf_rows {D S P} (l r : D -> nat -> bool) (Q : list nat -> tree D S P -> Prop) (left right : D -> Prop) t i : reaches left right t i ->
  forall rows, nodes_ok l r Q rows t -> exists rs, incl rs rows /\ Q rs (Leaf i) /\
    forall q, (forall e, left e -> l e q = true) -> (forall e, right e -> r e q = true) -> In q rows -> In q rs.
Proof.
  induction 1 as [i|i e a b c1 c2 j He Hr IH|i e a b c1 c2 j He Hr IH]; intros rows Hn.
  - exists rows. split; [apply incl_refl|]. split; [apply Hn|auto].
  - destruct Hn as (_ & H1 & _). destruct (IH _ H1) as (rs & K1 & K2 & K3). exists rs. split; [intros x Hx; apply K1, filter_In in Hx; tauto|]. split; [exact K2|].
    intros q Hl Hr' Hq. apply K3; auto. apply filter_In. auto.
  - destruct Hn as (_ & _ & H2). destruct (IH _ H2) as (rs & K1 & K2 & K3). exists rs. split; [intros x Hx; apply K1, filter_In in Hx; tauto|]. split; [exact K2|].
    intros q Hl Hr' Hq. apply K3; auto. apply filter_In. auto.
Qed.

Section Predict.
Variable fsum : list float64 -> float64.
Variables (flog fgammaln : float64 -> float64) (fpow : float64 -> nat -> float64) (f2pi pp delta : float64).
Notation L := (freg_lik fsum flog fgammaln fpow f2pi pp delta).

(** A prediction is close to the exact posterior mean of the training rows of some leaf; for a training row, of its own leaf. *)
Theorem freg_predictions p srt same do_prune lvl pa (d : tset float64 float64) prior M t :
  (forall l, sum_of l (fsum l)) -> Beqb delta f_zero = true -> freg_get_prior pa (ts_n d) (ts_dim d) = prior ->
  INR (ts_n d) <= b2 20 -> 1 <= M <= b2 300 -> sized_prior M prior -> (forall i, (i < ts_n d)%nat -> sized M (ts_y d i)) ->
  Bltb p f_zero = false -> sorts fleb srt -> tset_ok d -> finite_entries 53 1024 (ts_X d) (ts_n d) (ts_dim d) ->
  separable 53 1024 prec64_pos prec64_lt p (ts_X d) (ts_n d) (ts_dim d) ->
  perp_fit (feat_f p srt) L same do_prune lvl pa d = Ok t ->
  forall Xq m q, (q < m)%nat -> (forall c, (c < ts_dim d)%nat -> is_nan (Xq q c) = false) ->
  exists a rs, nth_error (freg_predict t Xq m) q = Some a /\ is_finite a = true /\ rs <> [] /\ (forall i, In i rs -> (i < ts_n d)%nat) /\
    Rabs (B2R a - ng_mu (ng_update 1 (ng_val prior) (map (fun i => B2R (ts_y d i)) rs))) <= 25 * (INR (ts_n d) * INR (ts_n d) * u53) * M /\
    (forall i, (i < ts_n d)%nat -> (forall c, Xq q c = ts_X d i c) -> In i rs).
Proof.
  intros Hsum Hdelta Hpa HN HM Hpr Hy Hp Hs Hd Hfin Hsep E Xq m q Hq Hnan.
  pose proof (nodes_close fsum flog fgammaln fpow f2pi pp delta _ _ (feat_f p srt) fleb same do_prune lvl pa d prior M t Hsum Hdelta Hpa HN HM Hpr Hy (fleb_refl 53 1024) Hs Hd
     (float_threshold 53 1024 _ _ ltac:(lia) p srt _ _ _ Hp Hfin Hsep) E) as HQ.
  destruct (lookup_reaches (f_left Xq) (f_right Xq) (fun i => freg_predict_leaf (i_post i)) t q) as (i & Hr & Hl).
  { intros e He. destruct (fit_thresholds (feat_f p srt) _ _ _ _ _ d t (fun key n => proj1 (Hs key n)) Hd E e He) as (r & s & Hrn & Hsn & Hc & Hv).
    unfold f_left, f_right. apply Bleb_negb; auto. rewrite Hv. cbn [f_mid feat_f]. apply mid_not_nan; auto. lia. }
  destruct (leaf_rows _ _ _ _ _ _ _ Hr _ HQ) as (rs & K1 & (K2 & _ & K3) & K4).
  exists (freg_predict_leaf (i_post i)), rs. unfold freg_predict. rewrite predict_rows_spec, nth_error_map, nth_error_seq.
  apply Nat.ltb_lt in Hq as Hb. rewrite Hb. cbn [option_map]. rewrite Nat.add_0_l, Hl. split; [reflexivity|].
  destruct K3 as (A1 & A2 & _). split; [exact A1|]. split; [exact K2|]. split; [intros j Hj; apply K1, in_seq in Hj; lia|]. split; [exact A2|].
  intros j Hj Hc. apply K4; [| |apply in_seq; lia]; intros e He; [unfold f_left in He|unfold f_right in He]; rewrite (Hc (sd_dim e)) in He; exact He.
Qed.
End Predict.

(** ** Fits *)
Section Fits.
Variable fsum : list float64 -> float64.
Variables (flog fgammaln : float64 -> float64) (fpow : float64 -> nat -> float64) (f2pi pp delta : float64).
Variables (depth : nat) (pa : option fng) (M el eps eg G : R).
Variable p : float64.
Variable srt : (nat -> float64) -> nat -> list nat.
Variable srt' : (nat -> R) -> nat -> list nat.
Variable d : tset float64 float64.
Notation L := (freg_lik fsum flog fgammaln fpow f2pi pp delta).
Notation prior := (freg_get_prior pa (ts_n d) (ts_dim d)).
Notation XR := (fun i c => B2R (ts_X d i c)).
Notation dR := (reg_exact_set d XR).
Notation tau := (reg_tau el eps eg G (ts_n d) M prior).
Hypothesis Hp : is_finite p = true /\ B2R p = 0.
Hypothesis Hs : sorts fleb srt.
Hypothesis Hs' : sorts Rleb srt'.
Hypothesis Hagree : forall c, (c < ts_dim d)%nat -> srt' (fun i => B2R (ts_X d i c)) (ts_n d) = srt (fun i => ts_X d i c) (ts_n d).
Hypothesis Hfin : finite_entries 53 1024 (ts_X d) (ts_n d) (ts_dim d).
Hypothesis Hsep : separable 53 1024 prec64_pos prec64_lt p (ts_X d) (ts_n d) (ts_dim d).
Hypothesis Hset : reg64_setting fsum flog fgammaln fpow f2pi pp delta depth prior M el eps eg G d.

Lemma n_small : (Z.of_nat (ts_n d) < 2 ^ 21)%Z.
Proof.
  destruct Hset as [_ _ _ HN _ _ _ _ _ _ _ _]. change (b2 20) with 1048576 in HN. rewrite INR_IZR_INZ in HN. apply le_IZR in HN. lia.
Qed.
Lemma real_prior : t_prior (reg_tgt (B2R pp) 0) (option_map ng_val pa) (ts_n d) (ts_dim d) = ng_val prior.
Proof. rewrite <- (prior_value pa (ts_n d) (ts_dim d) n_small). reflexivity. Qed.

Theorem reg_near same do_prune t : perp_fit (feat_f p srt) L same do_prune 0 pa d = Ok t ->
  nodes_ok (f_left (ts_X d)) (f_right (ts_X d)) (near_split_node (thr_f (ts_X d)) (B2R pp) 0 (ng_logev (ng_val prior)) tau depth dR) (seq 0 (ts_n d)) t /\
  (do_prune = false -> nodes_ok (f_left (ts_X d)) (f_right (ts_X d)) (near_leaf_node (B2R pp) 0 (ng_logev (ng_val prior)) tau depth dR) (seq 0 (ts_n d)) t).
Proof.
  intros E. pose proof (freg_apx fsum flog fgammaln fpow f2pi pp delta depth prior M el eps eg G float64 d Hset) as Ha. pose proof (tau_pos _ _ _ _ _ _ _ _ _ _ _ _ _ _ _ _ Hset) as Ht.
  pose proof real_prior as Hr. pose proof (gs_set _ _ _ _ _ _ _ _ _ _ _ _ _ _ _ Hset) as Hd.
  refine (near_float_gen L (B2R pp) (reg_tgt (B2R pp) 0) ng_logev (ng_val prior) (option_map ng_val pa) pa (ts_n d) (ts_dim d) depth (ts_names d) (fun i => B2R (ts_y d i)) (ts_y d) tau (fng_rel prior)
    (reg_scored _ _) (reg_tgt_perm _ _) eq_refl Hr (conj eq_refl eq_refl) (fun ys m => _) Ha p srt srt' (ts_X d) Hp Hs Hs' Hagree Hfin Hsep Hd same do_prune t _).
  - exact (update_0 _ _ _ _ _ _ _ _ _ _ _ _ _ _ _ _ Hset ys).
  - destruct d. exact E.
Qed.

Theorem reg_same_tree h te same t : reg_setting srt' (ng_val prior) h dR -> h_prior h = option_map ng_val pa -> h_prune h = false -> h_delta h = 0 -> h_pp h = B2R pp -> h_prec h = 0 ->
  reg_fit srt' h dR = Ok te -> every_node dR te (clear_node (B2R pp) 0 (ng_logev (ng_val prior)) tau depth dR) ->
  perp_fit (feat_f p srt) L same false 0 pa d = Ok t -> float_copy (ts_X d) (seq 0 (ts_n d)) te t.
Proof.
  intros Hc H0 H1 H2 H3 H4 Ee Hcl E.
  destruct (reg_fit_opt srt' _ h dR Hc) as (te' & t0 & Ee' & Ho & Et & _). rewrite Ee in Ee'. injection Ee' as <-. rewrite H1 in Et. subst t0.
  rewrite H0, H2, H3, H4 in Ho.
  pose proof (freg_apx fsum flog fgammaln fpow f2pi pp delta depth prior M el eps eg G float64 d Hset) as Ha. pose proof (tau_pos _ _ _ _ _ _ _ _ _ _ _ _ _ _ _ _ Hset) as Ht.
  pose proof real_prior as Hr. pose proof (gs_set _ _ _ _ _ _ _ _ _ _ _ _ _ _ _ Hset) as Hd.
  refine (same_float_gen L (B2R pp) (reg_tgt (B2R pp) 0) ng_logev (ng_val prior) (option_map ng_val pa) pa (ts_n d) (ts_dim d) depth (ts_names d) (fun i => B2R (ts_y d i)) (ts_y d) tau (fng_rel prior)
    (reg_scored _ _) (reg_tgt_perm _ _) Hr (conj eq_refl eq_refl) (fun ys m => _) Ha Ht p srt srt' (ts_X d) Hp Hs Hs' Hagree Hfin Hsep Hd te same t Ho Hcl _).
  - exact (update_0 _ _ _ _ _ _ _ _ _ _ _ _ _ _ _ _ Hset ys).
  - destruct d. exact E.
Qed.

Theorem reg_training h te same t : reg_setting srt' (ng_val prior) h dR -> h_prior h = option_map ng_val pa -> h_prune h = false -> h_delta h = 0 -> h_pp h = B2R pp -> h_prec h = 0 ->
  reg_fit srt' h dR = Ok te -> every_node dR te (clear_node (B2R pp) 0 (ng_logev (ng_val prior)) tau depth dR) ->
  perp_fit (feat_f p srt) L same false 0 pa d = Ok t ->
  forall r, (r < ts_n d)%nat -> exists a b, nth_error (freg_predict t (ts_X d) (ts_n d)) r = Some a /\ nth_error (reg_predict te XR (ts_n d)) r = Some b /\
    is_finite a = true /\ Rabs (B2R a - b) <= 25 * (INR (ts_n d) * INR (ts_n d) * u53) * M.
Proof.
  intros Hc H0 H1 H2 H3 H4 Ee Hcl E r Hr.
  pose proof (reg_same_tree h te same t Hc H0 H1 H2 H3 H4 Ee Hcl E) as Hcopy.
  pose proof (reg_nodes0 srt' _ h dR te Hc H2 Ee) as HQ.
  pose proof Hset as [J1 J2 J3 J4 J5 J6 J7 _ _ _ _ _].
  assert (Hp0 : Bltb p (B754_zero false) = false).
  { rewrite Bltb_correct by (try apply Hp; reflexivity). apply Rlt_bool_false. rewrite (proj2 Hp). apply Rle_refl. }
  pose proof (nodes_close fsum flog fgammaln fpow f2pi pp delta _ _ (feat_f p srt) fleb same false 0 pa d prior M t J3 J2 eq_refl J4 J5 J6 J7 (fleb_refl 53 1024) Hs J1
     (float_threshold 53 1024 _ _ ltac:(lia) p srt _ _ _ Hp0 Hfin Hsep) E) as HQ'.
  destruct (copy_lookup (ts_X d) (fun i => reg_predict_leaf (i_post i)) (fun i => freg_predict_leaf (i_post i))
     (fun rs i => i_post i = ng_update 1 (ng_val prior) (targets dR rs)) (fun rs i => post_close (ts_n d) M prior (i_post i) (ng_update 1 (ng_val prior) (map (fun i => B2R (ts_y d i)) rs)))
     te (seq 0 (ts_n d)) t Hcopy) with (r := r) as (rs & i & i' & K1 & K2 & K3 & K4 & K5).
  - eapply nodes_ok_impl; [|exact HQ]. cbv beta. intros rs u (_ & _ & H). exact H.
  - eapply nodes_ok_impl; [|exact HQ']. cbv beta. intros rs u (_ & _ & H). exact H.
  - apply in_seq. lia.
  - exists (freg_predict_leaf (i_post i')), (reg_predict_leaf (i_post i)). unfold freg_predict, reg_predict. rewrite !predict_rows_spec, !nth_error_map, !nth_error_seq.
    destruct (Nat.ltb_spec r (ts_n d)); [|lia]. cbn [option_map]. rewrite Nat.add_0_l, K4, K5. split; [reflexivity|]. split; [reflexivity|].
    unfold freg_predict_leaf, reg_predict_leaf. rewrite K2. destruct K3 as (A1 & A2 & _). split; [exact A1|exact A2].
Qed.
End Fits.

(** The posteriors of a tree over float64 features, spelled out. *)
Theorem posteriors_close fsum flog fgammaln fpow f2pi pp delta p srt same do_prune lvl pa (d : tset float64 float64) prior M t :
  (forall l, sum_of l (fsum l)) -> Beqb delta f_zero = true -> freg_get_prior pa (ts_n d) (ts_dim d) = prior ->
  INR (ts_n d) <= b2 20 -> 1 <= M <= b2 300 -> sized_prior M prior -> (forall i, (i < ts_n d)%nat -> sized M (ts_y d i)) ->
  Bltb p f_zero = false -> sorts fleb srt -> tset_ok d -> finite_entries 53 1024 (ts_X d) (ts_n d) (ts_dim d) ->
  separable 53 1024 prec64_pos prec64_lt p (ts_X d) (ts_n d) (ts_dim d) ->
  perp_fit (feat_f p srt) (freg_lik fsum flog fgammaln fpow f2pi pp delta) same do_prune lvl pa d = Ok t ->
  nodes_ok (f_left (ts_X d)) (f_right (ts_X d)) (fun rows u => rows <> [] /\ i_n_data (info u) = List.length rows /\
    let q := i_post (info u) in let x := ng_update 1 (ng_val prior) (map (fun i => B2R (ts_y d i)) rows) in let w := INR (ts_n d) * INR (ts_n d) * b2 (-53) in
    is_finite (fn_mu q) = true /\ Rabs (B2R (fn_mu q) - ng_mu x) <= 25 * w * M /\
    is_finite (fn_kappa q) = true /\ Rabs (B2R (fn_kappa q) - ng_kappa x) <= b2 (-53) * ng_kappa x /\
    is_finite (fn_alpha q) = true /\ Rabs (B2R (fn_alpha q) - ng_alpha x) <= b2 (-53) * ng_alpha x /\
    is_finite (fn_beta q) = true /\ Rabs (B2R (fn_beta q) - ng_beta x) <= 52 * w * (B2R (fn_beta prior) + (1 + 2 * B2R (fn_kappa prior)) * (M * M)))
    (seq 0 (ts_n d)) t.
Proof.
  intros Hsum Hdelta Hpa HN HM Hpr Hy Hp Hs Hd Hfin Hsep E.
  pose proof (nodes_close fsum flog fgammaln fpow f2pi pp delta _ _ (feat_f p srt) fleb same do_prune lvl pa d prior M t Hsum Hdelta Hpa HN HM Hpr Hy (fleb_refl 53 1024) Hs Hd
     (float_threshold 53 1024 _ _ ltac:(lia) p srt _ _ _ Hp Hfin Hsep) E) as HQ.
  eapply nodes_ok_impl; [|exact HQ]. cbv beta. intros rows u (H1 & H2 & H3). split; [exact H1|]. split; [exact H2|].
  destruct H3 as (A1 & A2 & A3 & A4 & A5 & A6 & A7 & A8). cbv zeta. repeat (split; [assumption|]).
  eapply Rle_trans; [exact A8|]. unfold reg_rb, reg_w. destruct Hpr as (_ & _ & _ & _ & _ & _ & _ & Hb). pose proof (b2_pos (-300)).
  apply Req_le. change (b2 (-53)) with u53. field. lra.
Qed.
