(** * HyperApi: facts about fitted hyperplane trees over exact reals. *)
From Coq Require Import Reals Permutation Sorted.
From Verif Require Import Prelude Lists Tree Perp RealOps Clf Reg Api Hyper Spec FitProofs OptSpec OptProofs ClfSpec RegSpec ApiSpec
  HyperSpec ClfProofs RegProofs PruneProofs NodeFacts SplitFacts PredictProofs HyperProofs HyperOpt HyperDist.
Local Open Scope nat_scope.

Lemma geo_R_excl {C} (pre : C -> list R) prec srt nrm org x :
  g_front (geo_R pre prec srt) nrm org x = negb (g_back (geo_R pre prec srt) nrm org x).
Proof.
  simpl. unfold Rgeb, Rleb, Rltb. destruct (Rle_dec _ _), (Rlt_dec _ _); auto; lra.
Qed.
Lemma geo_R_excl' {C} (pre : C -> list R) prec srt nrm org x :
  g_front (geo_R pre prec srt) nrm org x = true -> g_back (geo_R pre prec srt) nrm org x = false.
Proof. rewrite geo_R_excl. destruct (g_back _ _ _ _); auto. Qed.

Section Fits.
Context {C P : Type}.
Variable pre : C -> list R.
Variables pp prec : R.
Hypothesis Hprec : (0 <= prec)%R.
Variable L : lik R P R.
Variable T : tgt R P R.
Variable post : R -> P -> list R -> P.
Variable ev : P -> list R -> R.
Variable Pok : P -> Prop.
Variable Yok : R -> Prop.
Hypothesis law : lik_law L T Pok Yok.
Hypothesis Tperm : tgt_perm T.
Hypothesis Hgt : l_gt L = Rgtb.
Hypothesis Hge : l_ge L = Rgeb.
Hypothesis HT : scored T pp ev.
Hypothesis post0 : forall p ys, post 0 p ys = p.
Hypothesis prior_some : forall p n d, l_prior L (Some p) n d = p.
Variable cands : list bool -> list C.
Variable d : hset (list R) R.
Hypothesis Hd : hset_ok d.
Hypothesis Hy : forall i, i < hs_n d -> Yok (hs_y d i).

Notation fitd srt := (hfit (geo_R pre prec srt) L post (hs_X d) (hs_y d) (hs_dim d) cands).
Definition sub_rows (rows : list nat) : Prop := NoDup rows /\ rows <> [] /\ forall i, In i rows -> i < hs_n d.
Lemma sub_filter rows (f : nat -> bool) : sub_rows rows -> filter f rows <> [] -> sub_rows (filter f rows).
Proof.
  intros (H1 & H2 & H3) H. split; [apply NoDup_filter; auto|]. split; auto. intros i Hi. apply filter_In in Hi. apply H3. tauto.
Qed.
Lemma sub_Yok rows : sub_rows rows -> Forall Yok (map (hs_y d) rows).
Proof. intros (_ & _ & H). apply Forall_forall. intros z Hz. apply in_map_iff in Hz as (i & <- & Hi). auto. Qed.

(** ** Best candidates *)
Lemma fit_optimal srt q : sorts Rleb srt -> Pok q -> (forall ys, ys <> [] -> t_many T ys <-> many ys) -> forall fuel lvl path pa rows t,
  fitd srt fuel lvl path pa rows = Ok t -> sub_rows rows -> length path = lvl -> l_prior L pa (length rows) (hs_dim d) = q ->
  nodes_ok (behind (hs_X d)) (before (hs_X d)) (optimal_node pre prec srt cands pp (ev q) d) rows t.
Proof.
  intros Hs Hq Hmany. destruct HT as (_ & Hstop & Hcut).
  assert (Hdd : hs_dim d <> 0) by (destruct Hd as (_ & H & _); lia).
  induction fuel as [|fuel IH]; intros lvl path pa rows t H Hr Hpath Hp; [discriminate|].
  apply hfit_inv_reasons in H. rewrite Hp in H.
  set (ns := l_no_split L lvl q (map (hs_y d) rows)) in *.
  pose proof (opt_run_ok pre prec srt L T Pok Yok law Hgt Hge (sorts_permutes srt Hs) (hs_X d) (hs_y d) (hs_dim d) Hdd lvl q Hq rows
    (fun i Hi => Hy i (proj2 (proj2 Hr) i Hi)) ns (cands path)) as (_ & Hbest & Hmax & Hpl).
  set (st := opt_run _ _ _ _ _ _ _ _ _ _) in *.
  assert (Hv : forall nrm v dist pl, outcome prec srt (fun l r m => (ln (pp ^ (1 + lvl) / (INR m * INR (hs_dim d))) + ev q l + ev q r)%R) (hs_X d) (hs_y d) rows nrm v dist pl <->
     outcome prec srt (fun l r m => t_cut T lvl q (hs_dim d) m l r) (hs_X d) (hs_y d) rows nrm v dist pl).
  { intros nrm v dist pl. unfold outcome, cut_value. split; intros (m & k & A1 & A2 & A3 & A4 & A5); exists m, k;
      (split; [auto|]; split; [auto|]; split; [rewrite A3, Hcut; auto|]; split; [|exact A5]);
      intros k' Hk'; specialize (A4 k' Hk'); rewrite Hcut in *; auto. }
  assert (Ens : ns = (ln (1 - pp ^ (1 + lvl)) + ev q (htargets d rows))%R).
  { unfold ns. rewrite (ll_stop _ _ _ _ law); [apply Hstop|auto|apply sub_Yok; auto|].
    destruct Hr as (_ & Hr & _). destruct rows; [congruence|discriminate]. }
  assert (Hb : forall pl, o_plane st = Some pl -> exists c dist, In c (cands path) /\
     outcome prec srt (fun l r m => (ln (pp ^ (1 + lvl) / (INR m * INR (hs_dim d))) + ev q l + ev q r)%R) (hs_X d) (hs_y d) rows (unit_vec (pre c)) (o_best st) dist pl /\
     (ns <= o_best st)%R /\
     forall c' v' dist' pl', In c' (cands path) ->
       outcome prec srt (fun l r m => (ln (pp ^ (1 + lvl) / (INR m * INR (hs_dim d))) + ev q l + ev q r)%R) (hs_X d) (hs_y d) rows (unit_vec (pre c')) v' dist' pl' ->
      (v' <= o_best st)%R /\ (v' = o_best st -> (dist' <= dist)%R)).
  { intros pl Epl. rewrite Epl in Hpl. destruct Hpl as (c & Hin & Hout & Hdist).
    exists c, (o_dist st). split; [apply in_rev; auto|]. split; [apply Hv; auto|]. split; auto.
    intros c' v' dist' pl' Hc' Ho'. apply Hv in Ho'. apply in_rev in Hc'. split; [eapply Hmax; eauto|].
    intros ->. eapply Hdist; eauto. }
  destruct H as [(-> & H)|(pl & c1 & c2 & Epl & -> & H1 & H2 & Hc)].
  - cbn [nodes_ok optimal_node info i_level]. split; [|exact I]. right. right. exists path. split; auto.
    rewrite <- Ens. destruct H as [H|(pl & Epl & H)].
    + left. rewrite H in Hpl. intros c v dist pl Hin Ho. apply Hv in Ho. apply in_rev in Hin. destruct Hpl as (_ & _ & Hpl). eapply Hpl; eauto.
    + right. exists pl, (o_best st). split; [apply Hb; auto|]. exact H.
  - cbn [nodes_ok optimal_node info i_level]. split.
    + rewrite <- Ens. split; auto. exists path. split; auto.
    + assert (Hl : forall b rc c, (b = false /\ rc = filter (hgo1 (geo_R pre prec srt) (hs_X d) pl) rows /\ c = c1) \/
        (b = true /\ rc = filter (hgo2 (geo_R pre prec srt) (hs_X d) pl) rows /\ c = c2) ->
      sub_rows rc -> nodes_ok (behind (hs_X d)) (before (hs_X d)) (optimal_node pre prec srt cands pp (ev q) d) rc c).
      { intros b rc c' Hb' Hrc. destruct (Hc b rc c' Hb') as [(-> & Hw)|(fuel' & Ef & H)].
        - cbn [nodes_ok optimal_node info i_level]. split; [|exact I]. destruct Hw as [Hw|Hw]; auto. right. left.
          intros i j Hi Hj. destruct (Req_EM_T (hs_y d i) (hs_y d j)) as [|Hne]; auto. exfalso.
          assert (Hnn : map (hs_y d) rc <> []) by (destruct rc; [contradiction|discriminate]).
          assert (l_many L (map (hs_y d) rc) = true); [|congruence].
          apply (ll_many _ _ _ _ law); auto; [apply sub_Yok; auto|]. apply Hmany; auto.
          exists (hs_y d i), (hs_y d j). auto using in_map.
        - injection Ef as <-. rewrite post0 in H. eapply IH; eauto. rewrite app_length. simpl. lia. }
      split; [eapply (Hl false); [left; auto|]|eapply (Hl true); [right; auto|]]; apply sub_filter; auto.
Qed.

Hypothesis Hspread : forall path c, In c (cands path) -> spread prec (hs_X d) (unit_vec (pre c)) (hrows d).

Lemma sub_spread rows path c : sub_rows rows -> In c (cands path) -> spread prec (hs_X d) (unit_vec (pre c)) rows.
Proof.
  intros (_ & _ & Hi) Hc i j Hi' Hj' Hij. apply (Hspread path c Hc); auto; apply in_seq; split; try lia; apply Hi; auto.
Qed.
(** ** Recorded evidence (C37) *)
Lemma fit_recorded srt q : sorts Rleb srt -> Pok q -> forall fuel lvl path pa rows t,
  fitd srt fuel lvl path pa rows = Ok t -> sub_rows rows -> l_prior L pa (length rows) (hs_dim d) = q ->
  nodes_ok (behind (hs_X d)) (before (hs_X d)) (recorded_evidence pp (ev q) d) rows t.
Proof.
  intros Hs Hq. destruct HT as (_ & Hstop & Hcut).
  assert (Hdd : hs_dim d <> 0) by (destruct Hd as (_ & H & _); lia).
  induction fuel as [|fuel IH]; intros lvl path pa rows t H Hr Hp; [discriminate|].
  apply hfit_inv in H as [->|(pl & c1 & c2 & Epl & -> & H1 & H2 & Hc)]; [simpl; auto|].
  rewrite Hp in *. set (ns := l_no_split L lvl q (map (hs_y d) rows)) in *.
  pose proof (opt_run_ok pre prec srt L T Pok Yok law Hgt Hge (sorts_permutes srt Hs) (hs_X d) (hs_y d) (hs_dim d) Hdd lvl q Hq rows
    (fun i Hi => Hy i (proj2 (proj2 Hr) i Hi)) ns (cands path)) as (_ & Hbest & _ & Hpl).
  rewrite Epl in Hpl. destruct Hpl as (c & Hin & Hout & _). apply in_rev in Hin.
  apply (outcome_partition prec Hprec) in Hout; [|intros; apply (tp_cut _ Tperm); auto|exact Hs|apply Hr|eapply sub_spread; eauto|
    exists (hs_dim d); intros i Hi; apply Hd, Hr; auto].
  assert (Ens : ns = (ln (1 - pp ^ (1 + lvl)) + ev q (htargets d rows))%R).
  { unfold ns. rewrite (ll_stop _ _ _ _ law); [apply Hstop|auto|apply sub_Yok; auto|].
    destruct Hr as (_ & Hr & _). destruct rows; [congruence|discriminate]. }
  cbn [nodes_ok]. split.
  - cbn [recorded_evidence i_level]. split; [auto|]. split; [exact Hbest|].
    etransitivity; [exact Hout|]. cbv beta. rewrite Hcut. unfold partition_value. reflexivity.
  - assert (Hl : forall b rc c, (b = false /\ rc = filter (hgo1 (geo_R pre prec srt) (hs_X d) pl) rows /\ c = c1) \/
        (b = true /\ rc = filter (hgo2 (geo_R pre prec srt) (hs_X d) pl) rows /\ c = c2) ->
      sub_rows rc -> nodes_ok (behind (hs_X d)) (before (hs_X d)) (recorded_evidence pp (ev q) d) rc c).
    { intros b rc c' Hb Hrc. destruct (Hc b rc c' Hb) as [->|(fuel' & Ef & H)]; [simpl; auto|].
      injection Ef as <-. rewrite post0 in H. eapply IH; eauto. }
    split; [eapply (Hl false); [left; auto|]|eapply (Hl true); [right; auto|]]; apply sub_filter; auto.
Qed.

(** ** Row order (C36) *)
Section Reorder.
Variables srt srt' : (nat -> R) -> nat -> list nat.
Hypothesis Hs : sorts Rleb srt.
Hypothesis Hs' : sorts Rleb srt'.
Variable sigma : nat -> nat.
Notation X' := (fun i => hs_X d (sigma i)).
Notation y' := (fun i => hs_y d (sigma i)).
Notation fitd' := (hfit (geo_R pre prec srt') L post X' y' (hs_dim d) cands).

Lemma compute_reorder lvl q rows rows' ns s path c : Pok q -> sub_rows rows -> Permutation (map sigma rows') rows -> In c (cands path) ->
  opt_compute (geo_R pre prec srt) L (hs_X d) (hs_y d) (hs_dim d) lvl q rows ns s c =
  opt_compute (geo_R pre prec srt') L X' y' (hs_dim d) lvl q rows' ns s c.
Proof.
  intros Hq Hr Hp Hc.
  assert (Hdd : hs_dim d <> 0) by (destruct Hd as (_ & H & _); lia).
  assert (Hyr : forall i, In i rows -> Yok (hs_y d i)) by (intros i Hi; apply Hy, Hr; auto).
  assert (Hyr' : forall i, In i rows' -> Yok (hs_y d (sigma i))).
  { intros i Hi. apply Hyr. eapply Permutation_in; [exact Hp|]. apply in_map. auto. }
  pose proof (sub_spread rows path c Hr Hc) as Hsp.
  assert (Hnd : NoDup rows) by apply Hr.
  pose proof (compute_cases pre prec srt L T Pok Yok law Hgt Hge (sorts_permutes srt Hs) (hs_X d) (hs_y d) (hs_dim d) Hdd lvl q Hq rows Hyr ns s c) as H1.
  pose proof (compute_cases pre prec srt' L T Pok Yok law Hgt Hge (sorts_permutes srt' Hs') X' y' (hs_dim d) Hdd lvl q Hq rows' Hyr' ns s c) as H2.
  assert (Hcand : (exists k, candidate prec (hs_X d) rows (unit_vec (pre c)) k) <-> (exists k, candidate prec X' rows' (unit_vec (pre c)) k)).
  { pose proof (Permutation_length Hp) as Hl. rewrite map_length in Hl.
    assert (Hnd1 : NoDup (map sigma rows')) by (eapply Permutation_NoDup; [apply Permutation_sym; eauto|auto]).
    split; intros (k & Hk & _).
    - exists k. split; [lia|]. apply Hsp; try (eapply Permutation_in; [exact Hp|apply in_map, nth_In; lia]).
      intros E. assert (E' : nth k (map sigma rows') (sigma 0) = nth (k - 1) (map sigma rows') (sigma 0)) by (rewrite !map_nth; auto).
      apply (proj1 (NoDup_nth _ _) Hnd1) in E'; rewrite ?map_length; lia.
    - exists k. apply (candidate_all prec (hs_X d) rows Hnd _ Hsp). lia. }
  destruct H1 as [[Hno E1]|(v & dist & pl & s1 & Ho & E1 & Hf)]; destruct H2 as [[Hno' E2]|(v' & dist' & pl' & s2 & Ho' & E2 & Hf')].
  - rewrite E1, E2. reflexivity.
  - exfalso. destruct Ho' as (m & k & _ & Hk & _). destruct (proj2 Hcand (ex_intro _ k Hk)) as (k' & Hk'). eapply Hno; eauto.
  - exfalso. destruct Ho as (m & k & _ & Hk & _). destruct (proj1 Hcand (ex_intro _ k Hk)) as (k' & Hk'). eapply Hno'; eauto.
  - rewrite E1, E2. apply (outcome_reorder prec Hprec _ srt srt' (hs_X d) (hs_y d) sigma rows rows') in Ho; auto.
    destruct (outcome_det prec srt' T X' y' (hs_dim d) lvl q rows' _ _ _ _ _ _ _ Ho Ho') as (-> & -> & ->).
    f_equal. destruct Hf as [[A1 ->]|[A1 ->]], Hf' as [[A2 ->]|[A2 ->]]; auto; contradiction.
Qed.

Lemma run_reorder lvl q rows rows' ns path : Pok q -> sub_rows rows -> Permutation (map sigma rows') rows ->
  opt_run (geo_R pre prec srt) L (hs_X d) (hs_y d) (hs_dim d) lvl q rows ns (cands path) =
  opt_run (geo_R pre prec srt') L X' y' (hs_dim d) lvl q rows' ns (cands path).
Proof.
  intros Hq Hr Hp. unfold opt_run. change (opt_init (geo_R pre prec srt') ns) with (opt_init (geo_R pre prec srt) ns).
  generalize (opt_init (geo_R pre prec srt) ns).
  assert (Hi : forall c, In c (cands path) -> In c (cands path)) by auto. revert Hi.
  generalize (cands path) at 1 3 4. intros cs. induction cs as [|c cs IH]; intros Hi s; simpl; auto.
  rewrite (compute_reorder lvl q rows rows' ns s path c) at 1; auto; [|apply Hi; simpl; auto]. apply IH. intros; apply Hi; simpl; auto.
Qed.

Lemma filter_sigma (f : nat -> bool) rows rows' : Permutation (map sigma rows') rows ->
  Permutation (map sigma (filter (fun i => f (sigma i)) rows')) (filter f rows).
Proof.
  intros Hp. eapply Permutation_trans; [|apply Permutation_filter; exact Hp].
  clear. induction rows' as [|i l IH]; simpl; auto. destruct (f (sigma i)); simpl; auto.
Qed.

Lemma fit_reorder fuel : forall q lvl path pa rows rows', Pok q -> sub_rows rows -> Permutation (map sigma rows') rows ->
  l_prior L pa (length rows) (hs_dim d) = q ->
  fitd' fuel lvl path pa rows' = fitd srt fuel lvl path pa rows.
Proof.
  induction fuel as [|fuel IH]; intros q lvl path pa rows rows' Hq Hr Hp Hpr; [reflexivity|].
  assert (Hl : length rows' = length rows) by (rewrite <- (Permutation_length Hp), map_length; auto).
  assert (Hyp : forall r r', Permutation (map sigma r') r -> Permutation (map y' r') (map (hs_y d) r)).
  { intros r r' H. rewrite <- (map_map sigma (hs_y d)). apply Permutation_map. auto. }
  assert (Hyok : forall r r', sub_rows r -> Permutation (map sigma r') r -> Forall Yok (map y' r') /\ map y' r' <> []).
  { intros r r' H1 H2. split.
    - rewrite Forall_forall. intros z Hz. pose proof (sub_Yok r H1) as H. rewrite Forall_forall in H. apply H.
      eapply Permutation_in; [apply Hyp; eauto|auto].
    - intros E. pose proof (Permutation_length H2) as H3. rewrite map_length in H3. destruct r'; [|discriminate].
      destruct H1 as (_ & H1 & _). destruct r; [congruence|discriminate]. }
  assert (Hyne : forall r, sub_rows r -> map (hs_y d) r <> []).
  { intros r (_ & H & _). destruct r; [congruence|discriminate]. }
  assert (Hmany : forall r r', sub_rows r -> Permutation (map sigma r') r -> l_many L (map y' r') = l_many L (map (hs_y d) r)).
  { intros r r' H1 H2. destruct (Hyok r r' H1 H2) as [Y1 Y2]. apply eq_true_iff_eq.
    rewrite (ll_many _ _ _ _ law); auto. rewrite (ll_many _ _ _ _ law); auto using sub_Yok.
    split; apply (tp_many _ Tperm); auto. apply Permutation_sym; auto. }
  assert (Hpost : forall r r', sub_rows r -> Permutation (map sigma r') r -> l_post L q (map y' r') = l_post L q (map (hs_y d) r)).
  { intros r r' H1 H2. destruct (Hyok r r' H1 H2) as [Y1 Y2].
    rewrite (ll_post _ _ _ _ law); auto. rewrite (ll_post _ _ _ _ law); auto using sub_Yok. apply (tp_post _ Tperm); auto. }
  cbn [Hyper.hfit]. rewrite Hl, !Hpr.
  assert (Hns : l_no_split L lvl q (map y' rows') = l_no_split L lvl q (map (hs_y d) rows)).
  { destruct (Hyok rows rows' Hr Hp) as [Y1 Y2].
    rewrite (ll_stop _ _ _ _ law); auto. rewrite (ll_stop _ _ _ _ law); auto using sub_Yok. apply (tp_stop _ Tperm); auto. }
  rewrite Hns, (Hpost rows rows') by auto. rewrite <- (run_reorder lvl q rows rows' _ path) by auto.
  set (s := opt_run _ _ _ _ _ _ _ _ _ _).
  destruct (o_plane s) as [pl|]; [|reflexivity].
  set (f1 := fun i => g_back (geo_R pre prec srt) (p_normal pl) (p_origin pl) (hs_X d i)).
  set (f2 := fun i => g_front (geo_R pre prec srt) (p_normal pl) (p_origin pl) (hs_X d i)).
  change (filter (fun i => g_back (geo_R pre prec srt') (p_normal pl) (p_origin pl) (hs_X d (sigma i))) rows') with (filter (fun i => f1 (sigma i)) rows').
  change (filter (fun i => g_front (geo_R pre prec srt') (p_normal pl) (p_origin pl) (hs_X d (sigma i))) rows') with (filter (fun i => f2 (sigma i)) rows').
  pose proof (filter_sigma f1 rows rows' Hp) as P1. pose proof (filter_sigma f2 rows rows' Hp) as P2.
  assert (L1 : length (filter (fun i => f1 (sigma i)) rows') = length (filter f1 rows)) by (rewrite <- (Permutation_length P1), map_length; auto).
  assert (L2 : length (filter (fun i => f2 (sigma i)) rows') = length (filter f2 rows)) by (rewrite <- (Permutation_length P2), map_length; auto).
  rewrite L1, L2. destruct (0 <? length (filter f1 rows)) eqn:E1; [|reflexivity].
  destruct (0 <? length (filter f2 rows)) eqn:E2; [|reflexivity]. apply Nat.ltb_lt in E1, E2. cbn [andb].
  assert (S1 : sub_rows (filter f1 rows)) by (apply sub_filter; auto; intros E; rewrite E in E1; simpl in E1; lia).
  assert (S2 : sub_rows (filter f2 rows)) by (apply sub_filter; auto; intros E; rewrite E in E2; simpl in E2; lia).
  rewrite !post0, !(Hmany _ _ S1 P1), !(Hmany _ _ S2 P2), !(Hpost _ _ S1 P1), !(Hpost _ _ S2 P2).
  rewrite (IH q _ _ (Some q) (filter f1 rows) (filter (fun i => f1 (sigma i)) rows')) by auto.
  rewrite (IH q _ _ (Some q) (filter f2 rows) (filter (fun i => f2 (sigma i)) rows')) by auto.
  reflexivity.
Qed.
End Reorder.
End Fits.
