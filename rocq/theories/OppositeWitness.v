(** * OppositeWitness: a direction outside the searched half of the sphere (C79). *)
From Coq Require Import QArith Qreals Reals Lra Permutation.
From Verif Require Import Prelude Lists Tree Perp RealOps Clf Api Hyper Spec OptSpec OptProofs ClfSpec ClfProofs ApiSpec HyperSpec Exec Witness HyperOpt HyperDist HyperExec
  HyperLemmas HyperWitness PredictProofs Sphere SphereProofs SimilarSpec SimilarProofs.
Local Open Scope nat_scope.

Definition hop := qset 2 [[0;0];[0;0];[-1;0]]%Q [0;0;1].
Definition hop_h := qhyp (3 # 5) [1;1]%Z 0 false 0.

Lemma hop_dot c i : length c = 2 -> i < 3 -> dot (hs_X (hsetR hop) i) c = if Nat.eqb i 2 then (- nth 0 c 0)%R else 0%R.
Proof.
  destruct c as [|a [|b [|e c]]]; try discriminate. intros _ Hi. destruct i as [|[|[|i]]]; try lia; cbn [hsetR hs_X hop qset nth vecR map Nat.eqb];
    unfold dot; cbn [map2]; rewrite !vsum_cons; unfold vsum; cbn [fold_right]; unfold Q2R; cbn; lra.
Qed.
Lemma half_sphere_misses : exists k prior (h : hyper (list R)) d Xq, hclf_setting sort_R k prior h d /\
  (forall (cands : list bool -> list (list R)) t,
     (forall path c, In c (cands path) -> exists U, 1 + length U = hs_dim d /\ sphere true U = Ok c) ->
     hclf_fit (fun c => c) sort_R cands h d = Ok t -> splits t = [] /\ hclf_predict t Xq 1 = [0%R]) /\
  exists (c : list Q) t, length c = hs_dim d /\ (exists j, nth j (vecR c) 0 <> 0)%R /\
    hclf_fit vecR sort_R (fun _ => [c]) h d = Ok t /\ length (splits t) = 1 /\ hclf_predict t Xq 1 = [1%R].
Proof.
  destruct (hexec (3 # 5) 0 false [1;1]%Z (same_cands [[-1;0]]%Q) hop) as [v|e] eqn:E; [|vm_compute in E; discriminate].
  destruct (hexec_sound 2 (3 # 5) 0 0 false [1;1]%Z (same_cands [[-1;0]]%Q) hop v) as [Hs Ht]; auto;
    [split; reflexivity|discriminate|apply unitb_ok; reflexivity|].
  change (hclf_setting sort_R 2 (map IZR [1;1]%Z) hop_h (hsetR hop)) in Hs.
  exists 2, (map IZR [1;1]%Z), hop_h, (hsetR hop), (fun _ => vecR [-1;0]%Q). split; [exact Hs|]. split.
  - intros cands t Hc Hf.
    assert (HL : exists i, t = Leaf i).
    { pose proof (hclf_optimal _ _ _ _ _ _ _ _ Hs Hf) as Hn. unfold every_hnode in Hn. destruct t as [i|i pl a b c1 c2]; [eauto|]. exfalso.
      destruct (hclf_structure (fun c => c) sort_R cands hop_h (hsetR hop) _ ltac:(cbn; lia) Hf) as (_ & _ & Hlev & _).
      cbn [levels_ok info] in Hlev. destruct Hlev as [Hlev _].
      cbn [nodes_ok] in Hn. destruct Hn as [[(A & _)|Hn] _]; [discriminate|]. unfold optimal_node in Hn. cbn [info] in Hn. rewrite Hlev in Hn.
      destruct Hn as (_ & path & _ & c & dist & Hin & Ho & Hle & _).
      destruct (Hc path c Hin) as (U & HU & ES). cbn [hsetR hs_dim hop qset] in HU.
      assert (HU1 : Forall (fun u => 0 <= u <= 1)%R U).
      { apply Forall_forall. apply cube_checks. unfold sphere in ES. destruct (_ && _) eqn:E1; [reflexivity|discriminate]. }
      destruct (sphere_unit true U HU1) as (_ & c' & E1 & El & _ & E0 & Eu); [intros ->; discriminate|].
      rewrite E1 in ES. injection ES as ->. rewrite Eu in Ho. specialize (E0 eq_refl). assert (Hl2 : length c = 2) by lia.
      change (hrows (hsetR hop)) with [0;1;2] in *.
      assert (Hcand : forall k, candidate 0 (hs_X (hsetR hop)) [0;1;2] c k -> k = 2 /\ (0 < nth 0 c 0)%R).
      { intros k (Hk & Hg). cbn [length] in Hk. destruct k as [|[|[|k]]]; try lia; cbn [nth Nat.sub] in Hg; rewrite !hop_dot in Hg by (auto; lia); cbn [Nat.eqb] in Hg.
        - exfalso. rewrite Rminus_0_r, Rabs_R0 in Hg. lra.
        - split; auto. destruct (Req_dec (nth 0 c 0%R) 0) as [Z|Z]; [rewrite Z in Hg; rewrite Ropp_0, Rminus_0_r, Rabs_R0 in Hg; lra|lra]. }
      replace (h_prec hop_h) with 0%R in Ho by (cbn; rewrite Q2R_0; reflexivity).
      destruct Ho as (m & k & (ks & Hnd & Hm & Hks) & Hk & Ev & _). destruct (Hcand k Hk) as [-> Hpos].
      assert (m = 1) as ->.
      { subst m. transitivity (length [2]); [|reflexivity]. apply Permutation_length. apply NoDup_Permutation; [auto|repeat constructor; auto|].
        intros x. rewrite Hks. split; [intros Hx; left; symmetry; apply Hcand, Hx|intros [<-|[]]; exact Hk]. }
      assert (Eso : sorted_rows sort_R (hs_X (hsetR hop)) [0;1;2] c = [2;0;1]).
      { unfold sorted_rows. cbn [length]. unfold sort_R. rewrite (argsort_by_comparison _ (fun j => Q2R (if Nat.eqb j 2 then -1 else 0))).
        - rewrite argsort_Q. reflexivity.
        - intros i' j' Hi' Hj'. rewrite !hop_dot by (destruct i' as [|[|[|i']]], j' as [|[|[|j']]]; try lia; cbn; auto; lia).
          destruct i' as [|[|[|i']]], j' as [|[|[|j']]]; try lia; cbn [nth Nat.eqb]; unfold Q2R; cbn; split; intros; lra. }
      unfold cut_value in Ev. rewrite Eso in Ev. cbn [firstn skipn map] in Ev. rewrite Ev in Hle. clear - Hle. revert Hle. apply Rlt_not_le.
      change (htargets (hsetR hop) [0;1;2]) with (map INR [0;0;1]).
      change (hs_y (hsetR hop) 2) with (INR 1). change (hs_y (hsetR hop) 0) with (INR 0). change (hs_y (hsetR hop) 1) with (INR 0).
      change [INR 1; INR 0] with (map INR [1;0]). change [INR 0] with (map INR [0]).
      change [1;1]%R with (map IZR [1;1]%Z). unfold clf_ev. assert (Hz : zpok 2 [1;1]%Z) by (split; [reflexivity|repeat constructor]).
      rewrite <- !(qdm_dm 2) by (auto; repeat constructor).
      replace (INR (hs_dim (hsetR hop))) with 2%R by (cbn; lra). cbn [hop_h qhyp h_pp INR].
      replace (Q2R (qdm [1; 1]%Z [0])) with (1 / 2)%R by (vm_compute; lra).
      replace (Q2R (qdm [1; 1]%Z [1;0])) with (1 / 6)%R by (vm_compute; lra).
      replace (Q2R (qdm [1; 1]%Z [0;0;1])) with (1 / 12)%R by (vm_compute; lra).
      replace (Q2R (3 # 5)) with (3 / 5)%R by (unfold Q2R; simpl; lra). cbn [Nat.add pow].
      replace (3 / 5 * 1 / (1 * 2))%R with (3 / 10)%R by field.
      rewrite <- !ln_mult by lra. apply ln_increasing; lra. }
    destruct HL as [i ->]. split; [reflexivity|].
    pose proof (hclf_nodes _ _ _ _ _ _ _ _ Hs Hf) as Hn. cbn [every_hnode nodes_ok] in Hn. destruct Hn as [(_ & _ & Hp & _) _]. cbn [info] in Hp.
    unfold hclf_predict. rewrite predict_rows_spec. cbn [seq map lookup]. f_equal. rewrite Hp.
    change (htargets (hsetR hop) (hrows (hsetR hop))) with (map INR [0;0;1]).
    replace (add_counts 1 (map IZR [1;1]%Z) (map INR [0;0;1])) with (map IZR [3;2]%Z); [rewrite zargmax_R; reflexivity|].
    unfold add_counts. cbn [map length seq]. change [INR 0; INR 0; INR 1] with (map INR [0;0;1]). rewrite !zcount_label. cbn [map nth]. change (zcount 0 [0;0;1]) with 2. change (zcount 1 [0;0;1]) with 1.
    repeat f_equal; cbn; lra.
  - exists [-1;0]%Q, (htreeR v). split; [reflexivity|]. split; [exists 0; cbn; unfold Q2R; cbn; lra|].
    split; [|split].
    + exact Ht.
    + rewrite splits_htreeR, map_length. vm_compute in E. injection E as <-. reflexivity.
    + rewrite (qlookup_R _ (fun _ => [-1;0]%Q)). vm_compute in E. injection E as <-. reflexivity.
Qed.
