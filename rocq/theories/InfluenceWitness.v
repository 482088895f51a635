(** * InfluenceWitness: a constant column that removes a split, and a feature of importance 0 that decides predictions. *)
From Coq Require Import QArith Qreals Reals Lra.
From Coq Require String.
From Verif Require Import Prelude Lists Tree Perp RealOps Clf Reg Api Spec PredictProofs OptProofs ClfSpec ClfProofs RegSpec ApiSpec ApiProofs Importance ImportanceSpec ImportanceProofs
  Equiv Exec Witness Hyper HyperSpec HyperProofs HyperLemmas HyperExec HyperWitness RedundantSpec InfluenceSpec.
Local Open Scope nat_scope.

Section Strings.
Import String.
Open Scope string_scope.
Definition ex_narrow : tset Z nat := zset [[0];[0];[1];[1]]%Z [0;0;1;1] ["x"].
Definition ex_wide : tset Z nat := zset [[0;7];[0;7];[1;7];[1;7]]%Z [0;0;1;1] ["x";"c"].
End Strings.

Lemma wide_padded : padded (real_set ex_narrow) (real_set ex_wide).
Proof.
  split; [reflexivity|]. split; [cbn; lia|]. split; [|split].
  - intros i Hi. cbn in Hi. split; [reflexivity|]. intros f Hf. cbn in Hf. assert (f = 0) as -> by lia.
    do 4 (destruct i as [|i]; [reflexivity|]). lia.
  - intros f Hf. cbn in Hf. assert (f = 0) as -> by lia. reflexivity.
  - intros f Hf. cbn in Hf. assert (f = 1) as -> by lia. left. intros i j Hi Hj. cbn in Hi, Hj.
    do 4 (destruct i as [|i]; [do 4 (destruct j as [|j]; [reflexivity|]); lia|]). lia.
Qed.
Lemma wide_names : ts_dim (real_set ex_wide) <= List.length (ts_names (real_set ex_wide)).
Proof. cbn. lia. Qed.

(** The constant column turns the only split into a leaf. *)
Lemma constant_column : exists srt k prior h d d' t t' Xq,
  clf_setting srt k prior h d /\ h_prune h = false /\ padded d d' /\ (forall i, ts_X d' i 1 = ts_X d' 0 1 \/ ts_n d' <= i) /\
  clf_fit srt h d = Ok t /\ clf_fit srt h d' = Ok t' /\ clf_predict t Xq 2 = [0%R; 1%R] /\ clf_predict t' Xq 2 = [0%R; 0%R].
Proof.
  pose (h := hyp (1 # 3) [1;1]%Z 0 false 0). exists sort_R, 2, (map IZR [1;1]%Z), h, (real_set ex_narrow), (real_set ex_wide).
  destruct (exec_fit (1 # 3) 0 0 false [1;1]%Z ex_narrow) as [v|e] eqn:E; [|vm_compute in E; discriminate].
  destruct (exec_fit (1 # 3) 0 0 false [1;1]%Z ex_wide) as [v'|e] eqn:E'; [|vm_compute in E'; discriminate].
  destruct (exec_run 2 (1 # 3) 0 0 false [1;1]%Z ex_narrow v) with (srt := sort_R) as (Hs & t & Ht & Hr);
    auto using sort_R_sorts; try lia; [split; reflexivity|].
  destruct (exec_run 2 (1 # 3) 0 0 false [1;1]%Z ex_wide v') with (srt := sort_R) as (Hs' & t' & Ht' & Hr');
    auto using sort_R_sorts; try lia; [split; reflexivity|].
  exists t, t', (qX (fun i _ => if i =? 0 then 0%Z else 1%Z)). split; [exact Hs|]. split; [reflexivity|]. split; [apply wide_padded|].
  split. { intros i. destruct (le_lt_dec 4 i) as [H|H]; [right; exact H|left]. do 4 (destruct i as [|i]; [reflexivity|]). lia. }
  split; [exact Ht|]. split; [exact Ht'|].
  rewrite (clf_predict_exec _ _ _ _ Hr), (clf_predict_exec _ _ _ _ Hr').
  vm_compute in E. injection E as <-. vm_compute in E'. injection E' as <-. split; reflexivity.
Qed.

(** A fitted tree that is split on column 0 only. *)
Lemma splits_dims_R (t : tree (pdesc string Z) Q (list Z)) (u : ctree) : drop_scores u = tree_R t ->
  map (fun s => sd_dim (fst (fst s))) (splits u) = map (fun s => sd_dim (fst (fst s))) (splits t).
Proof.
  revert u. induction t as [i|i s a b c1 IH1 c2 IH2]; intros [j|j s' a' b' c1' c2'] H; try discriminate; [reflexivity|].
  cbn [drop_scores tree_R] in H. injection H. intros E2 E1 E _. subst. cbn [splits map fst]. rewrite !map_app, (IH1 c1' E1), (IH2 c2' E2). reflexivity.
Qed.
Lemma unused_case : let h := hyp (9 # 10) [1;1]%Z 0 false 0 in
  clf_setting sort_R 2 (map IZR [1;1]%Z) h (real_set ex_wide) /\ exists t v, clf_fit sort_R h (real_set ex_wide) = Ok t /\
  length (splits t) = 1 /\ feature_importance t = Ok v /\ no_importance 1 v.
Proof.
  intros h. destruct (exec_fit (9 # 10) 0 0 false [1;1]%Z ex_wide) as [v|e] eqn:E; [|vm_compute in E; discriminate].
  destruct (exec_run 2 (9 # 10) 0 0 false [1;1]%Z ex_wide v) with (srt := sort_R) as (Hs & t & Ht & Hr);
    auto using sort_R_sorts; try lia; [split; reflexivity|].
  split; [exact Hs|]. assert (Hd : map (fun s => sd_dim (fst (fst s))) (splits t) = [0]).
  { rewrite (splits_dims_R _ _ Hr). vm_compute in E. injection E as <-. reflexivity. }
  assert (Hl : length (splits t) = 1) by (rewrite <- (map_length (fun s => sd_dim (fst (fst s)))), Hd; reflexivity).
  destruct (clf_importance _ _ _ _ _ _ Hs Ht) as (w & Ew & Hlen & _ & Hw); [destruct (splits t); discriminate|].
  exists t, (map Some w). split; [exact Ht|]. split; [exact Hl|]. split; [exact Ew|]. left. rewrite nth_error_map.
  assert (nth_error w 1 = Some (nth 1 w 0%R)) as ->. { apply nth_error_nth'. rewrite Hlen. cbn. lia. }
  cbn [option_map]. do 2 f_equal. destruct (Hw 1 ltac:(cbn; lia)) as (H0 & Hiff & _).
  destruct (Rle_lt_or_eq_dec _ _ H0) as [H|H]; [exfalso|auto]. apply Hiff in H as (s & Hin & Hf).
  apply (in_map (fun s => sd_dim (fst (fst s)))) in Hin. rewrite Hd in Hin. destruct s as [[s a] b]. cbn in Hin, Hf. destruct Hin as [A|[]]. congruence.
Qed.

(** ** Hyperplanes: the split of the root has gain 0 and decides between the classes *)
Definition hi := qset 2 [[0;0];[0;0];[0;0];[0;1];[0;1];[0;1];[1;0]]%Q [0;0;0;1;1;1;0].
Definition hi_cands (path : list bool) : list (list Q) := match path with [] => [[1;0]]%Q | _ => [[0;1]]%Q end.
Lemma zero_importance_decides : exists (cands : list bool -> list (list Q)) pre srt k prior h d t v Xq Xq',
  hclf_setting srt k prior h d /\ hclf_fit pre srt cands h d = Ok t /\ cands_ok pre cands (hs_dim d) /\
  hyper_feature_importance t = Ok v /\ v = [Some 0%R; Some 1%R] /\
  same_rows_but 0 Xq Xq' /\ hclf_predict t Xq 1 = [1%R] /\ hclf_predict t Xq' 1 = [0%R].
Proof.
  destruct (hexec (2 # 3) 0 false [1;1]%Z hi_cands hi) as [v|e] eqn:E; [|vm_compute in E; discriminate].
  destruct (hexec_sound 2 (2 # 3) 0 0 false [1;1]%Z hi_cands hi v) as [Hs Ht]; auto; [split; reflexivity|discriminate| |].
  { intros path c Hc. destruct path; destruct Hc as [<-|[]]; reflexivity. }
  exists hi_cands, vecR, sort_R, 2, (map IZR [1;1]%Z), (qhyp (2 # 3) [1;1]%Z 0 false 0), (hsetR hi), (htreeR v), [Some 0%R; Some 1%R], (fun _ => vecR [0;5]%Q), (fun _ => vecR [1;5]%Q).
  split; [exact Hs|]. split; [exact Ht|]. split. { intros path c Hc. destruct path; destruct Hc as [<-|[]]; reflexivity. }
  assert (Hp1 : hclf_predict (htreeR v) (fun _ => vecR [0;5]%Q) 1 = [1%R]).
  { rewrite (qlookup_R v (fun _ => [0;5]%Q) 1). vm_compute in E. injection E as <-. reflexivity. }
  assert (Hp2 : hclf_predict (htreeR v) (fun _ => vecR [1;5]%Q) 1 = [0%R]).
  { rewrite (qlookup_R v (fun _ => [1;5]%Q) 1). vm_compute in E. injection E as <-. reflexivity. }
  split; [|split; [reflexivity|split; [|split; [exact Hp1|exact Hp2]]]].
  2:{ intros i. split; [reflexivity|]. intros g Hg. destruct g as [|[|g]]; [contradiction|reflexivity|destruct g; reflexivity]. }
  clear - E. vm_compute in E. injection E as <-. unfold hyper_feature_importance. cbn [htreeR info info_R i_n_dim repeat hyper_importance planeR p_normal vecR map map2].
  assert (Z : (lnQ (72 # 60480) - lnQ (144 # 120960))%R = 0%R).
  { unfold lnQ. replace (Q2R (72 # 60480)) with (Q2R (144 # 120960)) by (unfold Q2R; simpl; lra). lra. }
  assert (G : (0 < lnQ (144 # 10368) - lnQ (180 # 45360))%R).
  { unfold lnQ. assert (ln (Q2R (180 # 45360)) < ln (Q2R (144 # 10368)))%R; [|lra]. apply ln_increasing; unfold Q2R; simpl; lra. }
  set (g := (lnQ (144 # 10368) - lnQ (180 # 45360))%R) in *. rewrite Z.
  replace (Q2R 1) with 1%R by (unfold Q2R; simpl; lra). replace (Q2R 0) with 0%R by (unfold Q2R; simpl; lra).
  rewrite Rabs_R0, Rabs_R1, !vsum_cons. unfold vsum. cbn [fold_right]. unfold np_div, Reqb.
  destruct (Req_EM_T _ 0%R) as [C|C]; [exfalso; lra|]. do 2 f_equal; [f_equal|do 2 f_equal]; field; lra.
Qed.

(** A hyperplane tree with positive gains that ignores the second column. *)
Definition hw := qset 2 [[0;0];[0;3];[1;1];[1;5]]%Q [0;0;1;1].
Lemma hunused_case : let h := qhyp (9 # 10) [1;1]%Z 0 false 0 in
  hclf_setting sort_R 2 (map IZR [1;1]%Z) h (hsetR hw) /\ cands_ok vecR (same_cands [[1;0]]%Q) (hs_dim (hsetR hw)) /\
  exists t v, hclf_fit vecR sort_R (same_cands [[1;0]]%Q) h (hsetR hw) = Ok t /\ length (splits t) = 1 /\
  (forall s, In s (splits t) -> (0 < hgain s)%R) /\ hyper_feature_importance t = Ok v /\ no_importance 1 v.
Proof.
  intros h. destruct (hexec (9 # 10) 0 false [1;1]%Z (same_cands [[1;0]]%Q) hw) as [v|e] eqn:E; [|vm_compute in E; discriminate].
  destruct (hexec_sound 2 (9 # 10) 0 0 false [1;1]%Z (same_cands [[1;0]]%Q) hw v) as [Hs Ht]; auto; [split; reflexivity|discriminate|apply unitb_ok; reflexivity|].
  split; [exact Hs|]. assert (Hc : cands_ok vecR (same_cands [[1;0]]%Q) (hs_dim (hsetR hw))). { intros path c Hc. destruct Hc as [<-|[]]; reflexivity. }
  split; [exact Hc|]. exists (htreeR v).
  assert (Hp : forall s, In s (splits (htreeR v)) -> (0 < hgain s)%R /\ nth 1 (p_normal (fst (fst s))) 0%R = 0%R).
  { clear - E. rewrite splits_htreeR. vm_compute in E. injection E as <-. intros s [<-|[]]. cbn [hgain fst snd planeR p_normal]. split.
    - unfold lnQ. match goal with |- (0 < ln (Q2R ?a) - ln (Q2R ?b))%R => assert (ln (Q2R b) < ln (Q2R a))%R; [|lra] end. apply ln_increasing; unfold Q2R; simpl; lra.
    - cbn. unfold Q2R. simpl. lra. }
  assert (Hl : length (splits (htreeR v)) = 1) by (rewrite splits_htreeR, map_length; clear - E; vm_compute in E; injection E as <-; reflexivity).
  destruct (hclf_importance vecR sort_R (same_cands [[1;0]]%Q) 2 (map IZR [1;1]%Z) h (hsetR hw) (htreeR v) Hs Hc Ht) as (w & Ew & Hlen & _ & Hw).
  { destruct (splits (htreeR v)) as [|s l] eqn:Es; [discriminate|]. exists s. split; [left; reflexivity|]. apply Hp. left. reflexivity. }
  exists (map Some w). split; [exact Ht|]. split; [exact Hl|]. split; [intros s Hin; apply Hp, Hin|]. split; [exact Ew|]. left. rewrite nth_error_map.
  assert (nth_error w 1 = Some (nth 1 w 0%R)) as ->. { apply nth_error_nth'. rewrite Hlen. cbn. lia. }
  cbn [option_map]. do 2 f_equal. destruct (Hw 1 ltac:(cbn; lia)) as (_ & ->).
  assert (hgain_on 1 (htreeR v) = 0%R) as ->; [|unfold Rdiv; ring].
  unfold hgain_on. clear - Hp. induction (splits (htreeR v)) as [|s l IH]; [reflexivity|]. cbn [map]. rewrite vsum_cons, IH by (intros; apply Hp; right; auto).
  unfold hweight. destruct (Hp s (or_introl eq_refl)) as [_ ->]. rewrite Rabs_R0. ring.
Qed.
