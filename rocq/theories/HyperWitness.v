(** * HyperWitness: concrete hyperplane trees (examples and counterexamples). *)
From Coq Require Import QArith Qreals Qabs Permutation.
From Verif Require Import Prelude Lists Tree Perp RealOps Clf Reg Api Importance Hyper Spec PredictProofs OptSpec OptProofs ClfSpec ClfProofs
  RegSpec RegProofs ApiSpec HyperSpec Exec Witness RegWitness HyperOpt HyperDist HyperExec HyperLemmas.
Local Open Scope nat_scope.

Definition qset (dim : nat) (X : list (list Q)) (y : list nat) : hset (list Q) nat :=
  mkHSet (length X) dim (fun i => nth i X []) (fun i => nth i y 0).
Definition same_cands {C} (cs : list C) : list bool -> list C := fun _ => cs.
Definition qhyp (pp : Q) (prior : list Z) (delta : R) (prn : bool) (prec : Q) : hyper (list R) :=
  mkHyper (Q2R pp) (Some (map IZR prior)) delta prn (Q2R prec).

(** Prediction of the shadow tree. *)
Fixpoint qlookup (t : tree (plane (list Q) (list Q)) Q (list Z)) (x : list Q) : nat :=
  match t with
  | Leaf i => zargmax (i_post i)
  | Split _ pl _ _ c1 c2 => if g_front (qgeo 0) (p_normal pl) (p_origin pl) x then qlookup c2 x else qlookup c1 x
  end.
Lemma qlookup_R t Xq m : hclf_predict (htreeR t) (fun q => vecR (Xq q)) m = map (fun q => INR (qlookup t (Xq q))) (seq 0 m).
Proof.
  unfold hclf_predict. rewrite predict_rows_spec. apply map_ext. intros q.
  assert (H : lookup (behind (fun q => vecR (Xq q))) (before (fun q => vecR (Xq q))) (fun i => INR (clf_predict_leaf (i_post i))) (htreeR t) q =
     Some (INR (qlookup t (Xq q)))); [|rewrite H; auto].
  induction t as [i|i pl a b c1 IH1 c2 IH2]; cbn [htreeR lookup qlookup].
  - unfold info_R. cbn [i_post]. rewrite zargmax_R. auto.
  - rewrite IH1, IH2.
    replace (before (fun q => vecR (Xq q)) (planeR pl) q) with (g_front (qgeo 0) (p_normal pl) (p_origin pl) (Xq q)).
    + destruct (g_front _ _ _ _) eqn:E; auto. rewrite <- (negb_involutive (behind _ _ _)), <- before_behind.
      unfold before, planeR. cbn [p_normal p_origin]. rewrite !dot_Q, <- Q2R_minus, <- Q2R_0. unfold Rgeb. rewrite qle_R.
      cbn [g_front qgeo] in E. rewrite E. reflexivity.
    + unfold before, planeR. cbn [p_normal p_origin]. rewrite !dot_Q, <- Q2R_minus, <- Q2R_0. unfold Rgeb. rewrite qle_R. reflexivity.
Qed.
Lemma splits_htreeR t : splits (htreeR t) = map (fun s => (planeR (fst (fst s)), lnQ (snd (fst s)), lnQ (snd s))) (splits t).
Proof. induction t as [|i pl a b c1 IH1 c2 IH2]; auto. cbn [htreeR splits map]. rewrite map_app, IH1, IH2. auto. Qed.
Lemma shape_htreeR t : height (htreeR t) = height t /\ length (leaves (htreeR t)) = length (leaves t).
Proof.
  induction t as [|i pl a b c1 [A1 B1] c2 [A2 B2]]; auto. cbn [htreeR height leaves]. rewrite A1, A2, !app_length, B1, B2. auto.
Qed.
Definition spreadb (prec : Q) (d : hset (list Q) nat) (c : list Q) : bool :=
  forallb (fun i => forallb (fun j => Nat.eqb i j || qgt (Qabs (qdot (hs_X d i) c - qdot (hs_X d j) c)) prec) (seq 0 (hs_n d))) (seq 0 (hs_n d)).
Lemma spreadb_ok prec d cs : forallb (fun c => Qeq_bool (qdot c c) 1 && spreadb prec d c) cs = true ->
  all_spread vecR (same_cands cs) (Q2R prec) (hsetR d).
Proof.
  intros H path c Hc. rewrite forallb_forall in H. specialize (H c Hc). apply andb_true_iff in H as [Hu H].
  apply Qeq_bool_iff in Hu. unfold spreadb in H. rewrite forallb_forall in H.
  intros i j Hi Hj Hij. specialize (H i Hi). rewrite forallb_forall in H. specialize (H j Hj).
  apply orb_true_iff in H as [H|H]; [apply Nat.eqb_eq in H; congruence|].
  rewrite unit_Q by auto. cbn [hsetR hs_X]. rewrite !dot_Q, <- Q2R_minus, <- Q2R_abs.
  apply qgt_lt in H. apply Qlt_Rlt in H. lra.
Qed.
Lemma unitb_ok (cs : list (list Q)) : forallb (fun c => Qeq_bool (qdot c c) 1) cs = true ->
  forall path c, In c (same_cands cs path) -> (qdot c c == 1)%Q.
Proof. intros H path c Hc. rewrite forallb_forall in H. apply Qeq_bool_iff. apply H. exact Hc. Qed.

(** ** Three classes in the plane, two oblique splits *)
Definition hx1 := qset 2 [[0;0];[1;1#2];[2;0];[3;3];[4;4];[3;5];[0;6];[1;8];[0;9]]%Q [0;0;0;1;1;1;2;2;2].
Definition hx1_cs : list (list Q) := [[3#5;4#5];[-4#5;3#5];[8#17;15#17]]%Q.
Definition hx1_h delta prn := qhyp (9 # 10) [1; 1; 1]%Z delta prn 0.
Lemma hx1_fit delta prn : hclf_setting sort_R 3 (map IZR [1; 1; 1]%Z) (hx1_h delta prn) (hsetR hx1) /\
  all_spread vecR (same_cands hx1_cs) (h_prec (hx1_h delta prn)) (hsetR hx1) /\ cands_ok vecR (same_cands hx1_cs) 2 /\
  exists t, hclf_fit vecR sort_R (same_cands hx1_cs) (hx1_h delta prn) (hsetR hx1) = Ok t /\ height t = 2 /\ length (leaves t) = 3 /\
    exists s, In s (splits t) /\ (0 < hgain s)%R.
Proof.
  destruct (hexec (9 # 10) 0 prn [1;1;1]%Z (same_cands hx1_cs) hx1) as [v|e] eqn:E; [|destruct prn; vm_compute in E; discriminate].
  destruct (hexec_sound 3 (9 # 10) 0 delta prn [1;1;1]%Z (same_cands hx1_cs) hx1 v) as [Hs Ht]; auto;
    [split; reflexivity|discriminate|apply unitb_ok; reflexivity|].
  split; [exact Hs|]. split; [apply spreadb_ok; reflexivity|]. split.
  { intros path c Hc. repeat destruct Hc as [<-|Hc]; try reflexivity. contradiction. }
  exists (htreeR v). split; [exact Ht|]. destruct (shape_htreeR v) as [-> ->]. rewrite splits_htreeR.
  assert (Hv : height v = 2 /\ length (leaves v) = 3 /\ exists s, In s (splits v) /\ (0 < snd (fst s))%Q /\ (snd (fst s) < snd s)%Q).
  { destruct prn; vm_compute in E; injection E as <-; (split; [reflexivity|]; split; [reflexivity|]; eexists; split; [left; reflexivity|split; reflexivity]). }
  destruct Hv as (H1 & H2 & s & H3 & H4 & H5). split; auto. split; auto.
  eexists. split; [apply in_map; exact H3|]. cbn [hgain]. apply Q2R_gt0 in H4. apply Qlt_Rlt in H5.
  assert (ln (Q2R (snd (fst s))) < ln (Q2R (snd s)))%R by (apply ln_increasing; auto). unfold lnQ. lra.
Qed.

(** ** The row order changes the tree (C36) *)
Definition ho := qset 1 [[0];[0];[1]]%Q [0;0;1].
Definition ho_sigma (i : nat) : nat := match i with 1 => 2 | 2 => 1 | _ => i end.
Lemma order_matters : exists (cands : list bool -> list (list Q)) pre srt k prior h d sigma t t' Xq,
  hclf_setting srt k prior h d /\ reordering (hs_n d) sigma /\
  hclf_fit pre srt cands h d = Ok t /\ hclf_fit pre srt cands h (hreorder sigma d) = Ok t' /\
  hclf_predict t Xq 1 = [1%R] /\ hclf_predict t' Xq 1 = [0%R].
Proof.
  destruct (hexec (2 # 5) 0 false [1;1]%Z (same_cands [[1]]%Q) ho) as [v|e] eqn:E; [|vm_compute in E; discriminate].
  destruct (hexec (2 # 5) 0 false [1;1]%Z (same_cands [[1]]%Q) (hreorder ho_sigma ho)) as [v'|e] eqn:E'; [|vm_compute in E'; discriminate].
  destruct (hexec_sound 2 (2 # 5) 0 0 false [1;1]%Z (same_cands [[1]]%Q) ho v) as [Hs Ht]; auto;
    [split; reflexivity|discriminate|apply unitb_ok; reflexivity|].
  destruct (hexec_sound 2 (2 # 5) 0 0 false [1;1]%Z (same_cands [[1]]%Q) (hreorder ho_sigma ho) v') as [Hs' Ht']; auto;
    [split; reflexivity|discriminate|apply unitb_ok; reflexivity|].
  exists (same_cands [[1]]%Q), vecR, sort_R, 2, (map IZR [1;1]%Z), (qhyp (2 # 5) [1;1]%Z 0 false 0), (hsetR ho), ho_sigma, (htreeR v), (htreeR v'), (fun _ => vecR [1]%Q).
  split; [exact Hs|]. split.
  { unfold reordering. simpl. constructor. apply perm_swap. }
  split; [exact Ht|]. split; [exact Ht'|].
  rewrite !(qlookup_R _ (fun _ => [1]%Q)). vm_compute in E. injection E as <-. vm_compute in E'. injection E' as <-.
  split; reflexivity.
Qed.

(** ** The recorded evidence is not that of the partition (C37) *)
Definition hr := qset 1 [[1];[0];[1];[1]]%Q [0;0;1;1].
Lemma filter_htreeR pl d rows : filter (behind (hs_X (hsetR d)) (planeR pl)) rows =
    filter (fun i => g_back (qgeo 0) (p_normal pl) (p_origin pl) (hs_X d i)) rows /\
  filter (before (hs_X (hsetR d)) (planeR pl)) rows = filter (fun i => g_front (qgeo 0) (p_normal pl) (p_origin pl) (hs_X d i)) rows.
Proof.
  split; apply filter_ext; intros i; [unfold behind|unfold before]; cbn [planeR p_normal p_origin hsetR hs_X];
    rewrite !dot_Q, <- Q2R_minus, <- Q2R_0; [apply qgt_R|apply qle_R].
Qed.
Lemma wrong_evidence : exists (cands : list bool -> list (list Q)) pre srt k prior h d i pl v_no v_best c1 c2,
  hclf_setting srt k prior h d /\ hclf_fit pre srt cands h d = Ok (Split i pl v_no v_best c1 c2) /\
  forall m, 1 <= m ->
    v_best <> (ln (h_pp h ^ 1 / (INR m * INR (hs_dim d))) + clf_ev prior (htargets d (filter (behind (hs_X d) pl) (hrows d))) +
       clf_ev prior (htargets d (filter (before (hs_X d) pl) (hrows d))))%R.
Proof.
  destruct (hexec (9 # 10) 0 false [1;1]%Z (same_cands [[1]]%Q) hr) as [v|e] eqn:E; [|vm_compute in E; discriminate].
  destruct (hexec_sound 2 (9 # 10) 0 0 false [1;1]%Z (same_cands [[1]]%Q) hr v) as [Hs Ht]; auto;
    [split; reflexivity|discriminate|apply unitb_ok; reflexivity|].
  vm_compute in E. injection E as <-.
  exists (same_cands [[1]]%Q), vecR, sort_R, 2, (map IZR [1;1]%Z), (qhyp (9 # 10) [1;1]%Z 0 false 0), (hsetR hr).
  do 6 eexists. split; [exact Hs|]. split; [exact Ht|]. intros m Hm.
  match goal with |- context [planeR ?pl] => destruct (filter_htreeR pl hr (hrows (hsetR hr))) as [-> ->] end.
  match goal with |- context [htargets (hsetR hr) (filter ?f (hrows (hsetR hr)))] =>
    change (htargets (hsetR hr) (filter f (hrows (hsetR hr)))) with (map INR (map (hs_y hr) (filter f (seq 0 4)))) end.
  match goal with |- context [htargets (hsetR hr) (filter ?f (hrows (hsetR hr)))] =>
    change (htargets (hsetR hr) (filter f (hrows (hsetR hr)))) with (map INR (map (hs_y hr) (filter f (seq 0 4)))) end.
  match goal with |- context [map (hs_y hr) (filter ?f (seq 0 4))] =>
    replace (map (hs_y hr) (filter f (seq 0 4))) with [0] by (vm_compute; reflexivity) end.
  match goal with |- context [map (hs_y hr) (filter ?f (seq 0 4))] =>
    replace (map (hs_y hr) (filter f (seq 0 4))) with [0;1;1] by (vm_compute; reflexivity) end.
  unfold clf_ev. assert (Hz : zpok 2 [1;1]%Z) by (split; [reflexivity|repeat constructor]).
  rewrite <- !(qdm_dm 2) by (auto; repeat constructor).
  change (INR (hs_dim (hsetR hr))) with 1%R. cbn [qhyp h_pp].
  assert (Hm1 : (1 <= INR m)%R) by (change 1%R with (INR 1); apply le_INR; auto).
  replace (Q2R (qdm [1; 1]%Z [0])) with (1 / 2)%R by (vm_compute; lra).
  replace (Q2R (qdm [1; 1]%Z [0;1;1])) with (1 / 12)%R by (vm_compute; lra).
  unfold lnQ. replace (Q2R (36 # 720)) with (1 / 20)%R by (unfold Q2R; simpl; lra).
  replace (Q2R (9 # 10)) with (9 / 10)%R by (unfold Q2R; simpl; lra).
  assert (Hq : (0 < (9 / 10) ^ 1 / (INR m * 1) <= 9 / 10)%R).
  { split; [apply Rdiv_lt_0_compat; lra|]. apply (Rmult_le_reg_r (INR m)); [lra|].
    replace ((9 / 10) ^ 1 / (INR m * 1) * INR m)%R with (9 / 10)%R by (field; lra). nra. }
  rewrite <- !ln_mult by (try lra; apply Rmult_lt_0_compat; lra).
  apply Rgt_not_eq. apply ln_increasing.
  - repeat apply Rmult_lt_0_compat; lra.
  - nra.
Qed.

(** ** A split without gain has undefined feature importance (C13) *)
Definition hz := qset 1 [[0];[1]]%Q [0;1].
Lemma zero_gain_importance : exists (cands : list bool -> list (list Q)) pre srt k prior h d t,
  hclf_setting srt k prior h d /\ hclf_fit pre srt cands h d = Ok t /\ length (splits t) = 1 /\
  hyper_feature_importance t = Ok [None].
Proof.
  destruct (hexec (2 # 5) 0 false [1;1]%Z (same_cands [[1]]%Q) hz) as [v|e] eqn:E; [|vm_compute in E; discriminate].
  destruct (hexec_sound 2 (2 # 5) 0 0 false [1;1]%Z (same_cands [[1]]%Q) hz v) as [Hs Ht]; auto;
    [split; reflexivity|discriminate|apply unitb_ok; reflexivity|].
  exists (same_cands [[1]]%Q), vecR, sort_R, 2, (map IZR [1;1]%Z), (qhyp (2 # 5) [1;1]%Z 0 false 0), (hsetR hz), (htreeR v).
  split; [exact Hs|]. split; [exact Ht|].
  vm_compute in E. injection E as <-. split; [reflexivity|].
  apply (himportance_nan _ 1); [reflexivity|]. intros s [<-|[]]. split; [reflexivity|]. cbn [hgain]. unfold lnQ.
  replace (Q2R (2 # 20)) with (Q2R (3 # 30)) by (unfold Q2R; simpl; lra). lra.
Qed.

(** ** Regression: targets 0, 0, 3, 3 at 0, 1, 2, 3 *)
Definition hreg_set : hset (list R) R := mkHSet 4 1 (fun i => [INR i]) (fun i => if i <? 2 then 0%R else 3%R).
Definition hreg_cs : list (list R) := [[1%R]].
Definition hreg_h (delta : R) (prn : bool) : hyper ng := mkHyper (9 / 10) (Some p1) delta prn 0.
Lemma unit_1 : unit_vec [1%R] = [1%R].
Proof.
  unfold unit_vec. cbn [forallb]. unfold Reqb. destruct (Req_EM_T 1 0); [lra|]. cbn [andb map]. unfold norm, dot. cbn [map2].
  rewrite vsum_cons. unfold vsum. simpl. replace (1 * 1 + 0)%R with 1%R by lra. rewrite sqrt_1. f_equal. field.
Qed.
Lemma dot1 a : dot [a] [1%R] = a.
Proof. unfold dot. cbn [map2]. rewrite vsum_cons. unfold vsum. simpl. lra. Qed.
Lemma hreg_spread delta prn : all_spread (fun v => v) (same_cands hreg_cs) (h_prec (hreg_h delta prn)) hreg_set.
Proof.
  intros path c [<-|[]] i j _ _ Hij. rewrite unit_1. cbn [hreg_set hs_X hreg_h h_prec]. rewrite !dot1.
  apply Rabs_pos_lt. intros H. apply Rminus_diag_uniq in H. apply INR_eq in H. auto.
Qed.
Lemma hreg_set_ok delta prn : hreg_setting sort_R p1 (hreg_h delta prn) hreg_set.
Proof.
  split; [apply sort_R_sorts|]. split; [simpl; lra|]. split; [simpl; lra|]. split; [split; [simpl; lia|split; [simpl; lia|reflexivity]]|].
  split; [reflexivity|]. apply p1_ok.
Qed.
Lemma step_gain3 : (ln (1 - (9 / 10) ^ 1) + ng_logev p1 [0; 0; 3; 3] < ln ((9 / 10) ^ 1 / (3 * 1)) + ng_logev p1 [0; 0] + ng_logev p1 [3; 3])%R.
Proof.
  rewrite !ev2, !ev4.
  replace ((9 / 10) ^ 1 / (3 * 1))%R with (3 * / 10)%R by field. replace (1 - (9 / 10) ^ 1)%R with (/ 10)%R by field.
  replace (1 + 3 ^ 2 / 3)%R with 4%R by field. replace (1 + 0 ^ 2 / 3)%R with 1%R by field.
  replace (1 + (0 - 3) ^ 2 / 2 + (0 + 3) ^ 2 / 10)%R with (32 / 5)%R by field.
  rewrite (ln_mult 3), ln_1 by lra.
  assert (H : (ln 2 + 2 * ln 4 + ln 3 < ln 3 + 3 * ln (32 / 5) + ln 5 / 2)%R).
  { replace (2 * ln 4)%R with (ln (4 * 4))%R by (rewrite !ln_mult by lra; lra).
    replace (3 * ln (32 / 5))%R with (ln (32 / 5 * (32 / 5) * (32 / 5)))%R by (rewrite !ln_mult by lra; lra).
    assert (H5 : (0 < ln 5)%R) by (rewrite <- ln_1; apply ln_increasing; lra).
    rewrite <- !ln_mult by lra.
    apply Rlt_le_trans with (ln (3 * (32 / 5 * (32 / 5) * (32 / 5))))%R; [apply ln_increasing; lra|rewrite (ln_mult 3) by lra; lra]. }
  lra.
Qed.
Lemma hreg_sorted : sorted_rows sort_R (hs_X hreg_set) [0;1;2;3] [1%R] = [0;1;2;3].
Proof.
  unfold sorted_rows. cbn [length hreg_set hs_X]. unfold sort_R.
  rewrite (argsort_ext _ (fun j => Q2R (inject_Z (Z.of_nat (nth j [0;1;2;3] 0))))).
  - rewrite argsort_Q. reflexivity.
  - intros j. rewrite dot1, Q2R_inject, <- INR_IZR_INZ. auto.
Qed.
Lemma hreg_fit_split delta : exists t, hreg_fit (fun v => v) sort_R (same_cands hreg_cs) (hreg_h delta false) hreg_set = Ok t /\ 1 <= length (splits t).
Proof.
  destruct (hreg_total (fun v => v) sort_R (same_cands hreg_cs) (hreg_h delta false) hreg_set) as (t & E).
  exists t. split; auto.
  pose proof (hreg_optimal _ _ _ _ _ _ _ (hreg_set_ok delta false) E) as Hn. unfold every_hnode in Hn.
  destruct t as [i|i pl a b c1 c2]; [|simpl; lia]. exfalso.
  destruct (hreg_structure (fun v => v) sort_R (same_cands hreg_cs) (hreg_h delta false) hreg_set (Leaf i) ltac:(simpl; lia) E) as (_ & _ & Hlev & _).
  cbn [levels_ok info] in Hlev.
  cbn [nodes_ok] in Hn. destruct Hn as [[(A & _)|Hn] _]; [discriminate|]. unfold optimal_node in Hn. cbn [info] in Hn.
  change (hrows hreg_set) with [0;1;2;3] in Hn.
  destruct Hn as [Hn|[Hn|(path & _ & Hn)]].
  - simpl in Hn. lia.
  - specialize (Hn 0 2 ltac:(simpl; auto) ltac:(simpl; auto)). simpl in Hn. lra.
  - assert (Hi0 : i_level i = 0) by (destruct Hlev; auto). rewrite Hi0 in Hn.
    set (value := fun (l r : list R) (m : nat) => (ln (h_pp (hreg_h delta false) ^ (1 + 0) / (INR m * INR (hs_dim hreg_set))) + ng_logev p1 l + ng_logev p1 r)%R) in *.
    assert (Hcand : forall k, candidate 0 (hs_X hreg_set) [0;1;2;3] [1%R] k <-> 1 <= k < 4).
    { intros k. unfold candidate. split; [intros [H _]; exact H|]. intros Hk. split; [exact Hk|]. cbn [hreg_set hs_X]. rewrite !dot1.
      apply Rabs_pos_lt. destruct k as [|[|[|[|k]]]]; try lia; simpl; lra. }
    destruct Hn as [Hn|(pl & v & (c & dist & [<-|[]] & Ho & _) & Hside)].
    + assert (Hex : exists v dist pl, outcome 0 sort_R value (hs_X hreg_set) (hs_y hreg_set) [0;1;2;3] [1%R] v dist pl).
      { destruct (compute_cases (fun v => v) 0 sort_R (reg_lik (9 / 10) 0) (reg_tgt (9 / 10) 0) reg_pok (fun _ => True) (reg_law (9 / 10) 0 (Rle_refl 0)) eq_refl eq_refl
          (sorts_permutes _ sort_R_sorts) (hs_X hreg_set) (hs_y hreg_set) 1 (Nat.neq_succ_0 0) 0 p1 p1_ok [0;1;2;3] (fun _ _ => I) 0%R
          (opt_init (geo_R (fun v => v) 0 sort_R) 0%R) [1%R]) as [[Hno _]|(v & dist & pl & s' & Ho & _)].
        - exfalso. rewrite unit_1 in Hno. apply (Hno 1). apply Hcand. lia.
        - rewrite unit_1 in Ho. exists v, dist, pl. exact Ho. }
      destruct Hex as (v & dist & pl & Ho).
      assert (Hv : (ln (1 - (9 / 10) ^ 1) + ng_logev p1 [0; 0; 3; 3] < v)%R).
      { eapply Rlt_le_trans; [apply step_gain3|]. destruct Ho as (m & k & Hm & _ & _ & Hmax & _).
        assert (m = 3) as ->.
        { destruct Hm as (ks & Hnd & <- & Hks). transitivity (length [1;2;3]); [|reflexivity]. apply Permutation_length.
          apply NoDup_Permutation; auto; [repeat constructor; simpl; intuition lia|]. intros x. rewrite Hks, Hcand. simpl. intuition lia. }
        destruct (Hmax 2 ltac:(apply Hcand; lia)) as [Hle _]. unfold cut_value in Hle. rewrite hreg_sorted in Hle. cbn [firstn skipn map] in Hle.
        unfold value in Hle. simpl hs_dim in Hle. simpl hs_y in Hle. simpl h_pp in Hle. replace (INR 3) with 3%R in Hle by (simpl; lra).
        change (INR 1) with 1%R in Hle. cbn [Nat.add] in Hle. exact Hle. }
      specialize (Hn [1%R] v dist pl (or_introl eq_refl)). rewrite unit_1 in Hn. specialize (Hn Ho).
      change (htargets hreg_set [0;1;2;3]) with [0;0;3;3]%R in Hn. simpl h_pp in Hn. cbn [Nat.add] in Hn. lra.
    + rewrite unit_1 in Ho. destruct Ho as (m & k & _ & Hk & _ & _ & En & Eo & _). apply Hcand in Hk. rewrite hreg_sorted in Eo.
      assert (Ed : dot (p_normal pl) (p_origin pl) = (INR k - 1 / 2)%R).
      { rewrite En, Eo, dot_comm. cbn [hreg_set hs_X map2]. rewrite dot1. destruct k as [|[|[|[|k]]]]; try lia; simpl; lra. }
      assert (Hk' : (1 <= INR k <= 3)%R) by (change 1%R with (INR 1); replace 3%R with (INR 3) by (simpl; lra); split; apply le_INR; lia).
      destruct Hside as [Hs|Hs].
      * assert (Hin : In 0 (filter (behind (hs_X hreg_set) pl) [0;1;2;3])); [|rewrite Hs in Hin; contradiction].
        apply filter_In. split; [simpl; auto|]. unfold behind. rewrite Ed, En. cbn [hreg_set hs_X]. rewrite dot1. apply Rltb_true. simpl. lra.
      * assert (Hin : In 3 (filter (before (hs_X hreg_set) pl) [0;1;2;3])); [|rewrite Hs in Hin; contradiction].
        apply filter_In. split; [simpl; auto|]. unfold before. rewrite Ed, En. cbn [hreg_set hs_X]. rewrite dot1. apply Rgeb_true.
        replace (INR 3) with 3%R by (simpl; lra). lra.
Qed.

(** Side conditions of the theorems on these problems. *)
Lemma kept_case : sorts Rleb sort_R /\ hs_dim (hsetR hx1) <> 0 /\ clf_pok 3 [1; 1; 1]%R /\
  (forall i, In i (hrows (hsetR hx1)) -> clf_yok 3 (hs_y (hsetR hx1) i)) /\ reg_pok p1.
Proof.
  destruct (hclf_parts _ _ _ _ _ (proj1 (hx1_fit 0 true))) as (H1 & _ & _ & _ & H5 & _ & H7).
  split; [exact H1|]. split; [discriminate|]. split; [exact H5|]. split; [|exact p1_ok].
  intros i Hi. apply in_seq in Hi. apply H7. lia.
Qed.
Lemma reorder_case : sorts Rleb sort_R /\ reordering (hs_n (hsetR hx1)) (fun i => 8 - i).
Proof.
  split; [apply sort_R_sorts|]. unfold reordering. apply Permutation_sym. exact (Permutation_rev (seq 0 9)).
Qed.
