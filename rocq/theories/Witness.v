(** * Witness: concrete fitted trees (used to show that hypotheses can be met, and as counterexamples). *)
From Coq Require Import QArith Qreals Permutation Sorted.
From Coq Require String.
From Verif Require Import Prelude Lists Tree Perp RealOps Clf Reg Api Spec FitProofs PruneProofs PredictProofs OptSpec OptProofs
  OptFit Transport ClfSpec ClfProofs RegSpec RegProofs ApiSpec ApiProofs Equiv Exec.
Local Open Scope nat_scope.

(** A concrete argsort (stable insertion sort) and the fact that it sorts. *)
Definition sort_R : (nat -> R) -> nat -> list nat := argsort_by Rleb.
Lemma sort_R_sorts : sorts Rleb sort_R.
Proof. apply argsort_by_sorts. apply R_order. Qed.

(** Training sets given by lists. *)
Definition zset (X : list (list Z)) (y : list nat) (names : list string) : tset Z nat :=
  mkSet (length X) (length names) (fun i f => nth f (nth i X []) 0%Z) (fun i => nth i y 0) names.

(** Tree without scores. *)
Fixpoint drop_scores {D S P} (t : tree D S P) : tree D unit P :=
  match t with
  | Leaf i => Leaf i
  | Split i d _ _ c1 c2 => Split i d tt tt (drop_scores c1) (drop_scores c2)
  end.
Definition info_R (i : ninfo (list Z)) : ninfo (list R) :=
  mkInfo (option_map (map IZR) (i_prior i)) (i_level i) (i_n_data i) (i_n_dim i) (map IZR (i_post i)).
Fixpoint tree_R (t : tree (pdesc string Z) Q (list Z)) : tree (pdesc string R) unit (list R) :=
  match t with
  | Leaf i => Leaf (info_R i)
  | Split i d _ _ c1 c2 => Split (info_R i) (mkDesc (sd_dim d) (sd_name d) (half_Z (sd_dim d) (sd_val d))) tt tt (tree_R c1) (tree_R c2)
  end.
Lemma tree_rel_R k (t : tree (pdesc string Z) Q (list Z)) (t' : ctree) :
  tree_rel half_Z Rsq (Rpz k) t t' -> drop_scores t' = tree_R t.
Proof.
  assert (Hi : forall i i', info_rel (Rpz k) i i' -> i' = info_R i).
  { intros [pr l n m q] [pr' l' n' m' q'] (H1 & H2 & H3 & H4 & _ & H5). simpl in *. subst. unfold info_R. simpl. f_equal.
    destruct pr, pr'; simpl in *; try contradiction; auto. destruct H1 as [_ ->]. auto. }
  induction 1 as [i i' H|i i' d nm v a a' b b' c1 c1' c2 c2' H Ha Hb H1 IH1 H2 IH2]; simpl.
  - f_equal; auto.
  - f_equal; auto.
Qed.

Lemma lookup_drop {D S P O} go1 go2 (val : ninfo P -> O) (t : tree D S P) r :
  lookup go1 go2 val (drop_scores t) r = lookup go1 go2 val t r.
Proof. induction t as [i|i d a b c1 IH1 c2 IH2]; auto. cbn [drop_scores lookup]. rewrite IH1, IH2. auto. Qed.
Lemma predict_drop {D S P O} go1 go2 (val : ninfo P -> O) (t : tree D S P) m init :
  predict_rows go1 go2 val (drop_scores t) m init = predict_rows go1 go2 val t m init.
Proof. rewrite !predict_rows_spec. apply map_ext. intros r. rewrite lookup_drop. auto. Qed.

(** Decidable side conditions. *)
Definition zset_okb (k : nat) (prior : list Z) (d : tset Z nat) : bool :=
  (0 <? ts_n d) && (N.of_nat (ts_n d) <=? 2 ^ 64)%N && (0 <? ts_dim d) && (ts_dim d <=? length (ts_names d)) &&
  Nat.eqb (length prior) k && forallb (fun a => (0 <? a)%Z) prior &&
  forallb (fun i => ts_y d i <? k) (seq 0 (ts_n d)).

(** Running the shadow gives the real fit. *)
Theorem exec_run k pp delta prec prn prior d t :
  (0 < pp)%Q /\ (pp < 1)%Q -> (0 <= delta)%Z -> (0 <= prec)%Z -> zset_okb k prior d = true ->
  exec_fit pp delta prec prn prior d = Ok t ->
  let h := mkHyper (Q2R pp) (Some (map IZR prior)) (IZR delta) prn (IZR prec) in
  forall srt, sorts Rleb srt ->
  clf_setting srt k (map IZR prior) h (real_set d) /\
  exists t', clf_fit srt h (real_set d) = Ok t' /\ drop_scores t' = tree_R t.
Proof.
  intros Hpp Hdel Hprec Hok E h srt Hsrt. unfold zset_okb in Hok. rewrite !andb_true_iff in Hok.
  destruct Hok as ((((((H1 & H2) & H3) & H4) & H5) & H6) & H7).
  apply Nat.ltb_lt in H1, H3. apply N.leb_le in H2. apply Nat.leb_le in H4. apply Nat.eqb_eq in H5.
  rewrite forallb_forall in H6, H7.
  destruct (exec_sound k pp delta Hpp Hdel prec Hprec prn prior d t srt Hsrt) as (Hs & t' & Ht & Hr); auto.
  - split; auto.
  - split; auto. rewrite Forall_forall. intros a Ha. apply Z.ltb_lt. auto.
  - intros i Hi. apply Nat.ltb_lt. apply H7. apply in_seq. lia.
  - split; auto. exists t'. split; auto. eapply tree_rel_R; eauto.
Qed.

(** ** Example 1: three classes, two features, splits on both features. *)
Section Strings.
Import String.
Open Scope string_scope.
Definition ex1 : tset Z nat :=
  zset [[0;5];[1;7];[2;6];[10;0];[11;1];[12;2];[10;20];[11;21];[12;22]]%Z [0;0;0;1;1;1;2;2;2] ["x";"y"].
(** Counterexample to prune safety with an asymmetric prior. *)
Definition ex_prune : tset Z nat := zset [[0];[0];[0];[1]]%Z [0;1;1;1] ["x"].
(** Counterexample to relabelling equivariance with pruning. *)
Definition ex_swap : tset Z nat := zset [[0];[0];[0];[0];[1];[1];[1];[1]]%Z [0;0;1;1;0;0;0;0] ["x"].
Definition ex_swap' : tset Z nat := zset [[0];[0];[0];[0];[1];[1];[1];[1]]%Z [1;1;0;0;1;1;1;1] ["x"].
(** delta > 0. *)
Definition ex_delta : tset Z nat := zset [[0];[0];[1];[1]]%Z [0;0;1;1] ["x"].
End Strings.

Definition hyp (pp : Q) (prior : list Z) (delta : Z) (prn : bool) (prec : Z) : hyper (list R) :=
  mkHyper (Q2R pp) (Some (map IZR prior)) (IZR delta) prn (IZR prec).

Lemma shape_drop (u : ctree) v : drop_scores u = tree_R v -> height u = height v /\ length (leaves u) = length (leaves v).
Proof.
  revert v. induction u as [i|i d a b c1 IH1 c2 IH2]; intros [j|j e a' b' c1' c2']; simpl; try discriminate; auto.
  intros E. injection E as _ _ E1 E2. destruct (IH1 _ E1) as [A1 B1]. destruct (IH2 _ E2) as [A2 B2].
  rewrite !app_length. split; congruence.
Qed.

Definition ex1_h (prn : bool) : hyper (list R) := hyp (9 # 10) [1;1;1]%Z 0 prn 0.
Lemma ex1_fit prn :
  clf_setting sort_R 3 (map IZR [1;1;1]%Z) (ex1_h prn) (real_set ex1) /\
  exists t, clf_fit sort_R (ex1_h prn) (real_set ex1) = Ok t /\ height t = 2 /\ length (leaves t) = 3.
Proof.
  assert (H : exists t, exec_fit (9 # 10) 0 0 prn [1;1;1]%Z ex1 = Ok t /\ height t = 2 /\ length (leaves t) = 3).
  { destruct prn; vm_compute; eexists; split; reflexivity || (split; reflexivity). }
  destruct H as (t & E & Hh & Hl).
  destruct (exec_run 3 (9 # 10) 0 0 prn [1;1;1]%Z ex1 t) with (srt := sort_R) as (Hs & t' & Ht & Hr); auto; try lia.
  - split; reflexivity.
  - apply sort_R_sorts.
  - split; auto. exists t'. split; auto. destruct (shape_drop _ _ Hr) as [-> ->]. auto.
Qed.
(** The same with delta = 1. *)
Definition ex_delta_h (prn : bool) : hyper (list R) := hyp (9 # 10) [1;1]%Z 1 prn 0.
Lemma ex_delta_fit prn :
  clf_setting sort_R 2 (map IZR [1;1]%Z) (ex_delta_h prn) (real_set ex_delta) /\
  exists t, clf_fit sort_R (ex_delta_h prn) (real_set ex_delta) = Ok t /\ height t = 1 /\ length (leaves t) = 2.
Proof.
  assert (H : exists t, exec_fit (9 # 10) 1 0 prn [1;1]%Z ex_delta = Ok t /\ height t = 1 /\ length (leaves t) = 2).
  { destruct prn; vm_compute; eexists; split; reflexivity || (split; reflexivity). }
  destruct H as (t & E & Hh & Hl).
  destruct (exec_run 2 (9 # 10) 1 0 prn [1;1]%Z ex_delta t) with (srt := sort_R) as (Hs & t' & Ht & Hr); auto; try lia.
  - split; reflexivity.
  - apply sort_R_sorts.
  - split; auto. exists t'. split; auto. destruct (shape_drop _ _ Hr) as [-> ->]. auto.
Qed.

(** ** Predictions of concrete trees, by computation *)
Lemma zroute x v : Rltb (IZR x) (half_Z 0 v) = (2 * x <? v)%Z /\ Rgeb (IZR x) (half_Z 0 v) = (v <=? 2 * x)%Z.
Proof.
  unfold half_Z. split.
  - destruct (2 * x <? v)%Z eqn:E.
    + apply Z.ltb_lt in E. apply Rltb_true. apply IZR_lt in E. rewrite mult_IZR in E. lra.
    + apply Z.ltb_ge in E. apply Rltb_false. apply IZR_le in E. rewrite mult_IZR in E. lra.
  - destruct (v <=? 2 * x)%Z eqn:E.
    + apply Z.leb_le in E. apply Rgeb_true. apply IZR_le in E. rewrite mult_IZR in E. lra.
    + apply Z.leb_gt in E. apply Rgeb_false. apply IZR_lt in E. rewrite mult_IZR in E. lra.
Qed.
Definition qX (Zq : nat -> nat -> Z) : nat -> nat -> R := fun i f => IZR (Zq i f).
Lemma lookup_R {O O'} (val : ninfo (list R) -> O) (val' : ninfo (list Z) -> O') (f : O' -> O) Zq r :
  (forall i, val (info_R i) = f (val' i)) ->
  forall t, lookup (goes_left (qX Zq)) (goes_right (qX Zq)) val (tree_R t) r =
            option_map f (lookup (pgo1 (zfeat 0) Zq) (pgo2 (zfeat 0) Zq) val' t r).
Proof.
  intros Hv. induction t as [i|i d a b c1 IH1 c2 IH2]; cbn [tree_R lookup].
  - simpl. rewrite Hv. auto.
  - rewrite IH1, IH2. unfold goes_left, goes_right, pgo1, pgo2, qX. cbn [sd_dim sd_val f_lt f_ge zfeat].
    destruct (zroute (Zq r (sd_dim d)) (sd_val d)) as [E1 E2].
    change (half_Z (sd_dim d) (sd_val d)) with (half_Z 0 (sd_val d)). rewrite E1, E2.
    destruct (_ <=? _)%Z, (_ <? _)%Z; destruct (lookup _ _ _ c2 r), (lookup _ _ _ c1 r); auto.
Qed.
Definition exec_predict (t : tree (pdesc string Z) Q (list Z)) (Zq : nat -> nat -> Z) (m : nat) : list nat :=
  predict_rows (pgo1 (zfeat 0) Zq) (pgo2 (zfeat 0) Zq) (fun i => zargmax (i_post i)) t m 0.
Lemma clf_predict_exec (t : ctree) v Zq m : drop_scores t = tree_R v ->
  clf_predict t (qX Zq) m = map INR (exec_predict v Zq m).
Proof.
  intros E. unfold clf_predict, exec_predict. rewrite <- predict_drop, E, !predict_rows_spec, map_map. apply map_ext. intros r.
  rewrite (lookup_R _ (fun i => zargmax (i_post i)) INR).
  - destruct (lookup _ _ _ v r); auto.
  - intros i. unfold info_R. simpl. rewrite zargmax_R. auto.
Qed.
Definition exec_raw (t : tree (pdesc string Z) Q (list Z)) (Zq : nat -> nat -> Z) (m : nat) : list (option (option (list Z) * list Z)) :=
  predict_rows (pgo1 (zfeat 0) Zq) (pgo2 (zfeat 0) Zq) (fun i => Some (i_prior i, i_post i)) t m None.
Lemma raw_leaf_exec (t : ctree) v Zq m : drop_scores t = tree_R v ->
  raw_leaf_data t (qX Zq) m = map (option_map (fun x => (option_map (map IZR) (fst x), map IZR (snd x)))) (exec_raw v Zq m).
Proof.
  intros E. unfold raw_leaf_data, exec_raw. rewrite <- predict_drop, E, !predict_rows_spec, map_map. apply map_ext. intros r.
  rewrite (lookup_R _ (fun i => Some (i_prior i, i_post i)) (option_map (fun x => (option_map (map IZR) (fst x), map IZR (snd x))))).
  - destruct (lookup _ _ _ v r); auto.
  - intros i. reflexivity.
Qed.

Definition swap2 (c : nat) : nat := 1 - c.
Lemma real_set_relabel d pi : map_target (relabel pi) (real_set d) = real_set (map_target pi d).
Proof.
  unfold map_target, real_set. simpl. f_equal. apply FunctionalExtensionality.functional_extensionality. intros i.
  unfold relabel. rewrite label_INR. auto.
Qed.

(** Pruning changes predictions under an asymmetric prior (C16). *)
Lemma prune_changes : exists srt k prior h d t t' Xq,
  clf_setting srt k prior h d /\ h_delta h = 0%R /\
  clf_fit srt (mkHyper (h_pp h) (h_prior h) (h_delta h) false (h_prec h)) d = Ok t /\
  clf_fit srt (mkHyper (h_pp h) (h_prior h) (h_delta h) true (h_prec h)) d = Ok t' /\
  clf_predict t Xq 1 = [0%R] /\ clf_predict t' Xq 1 = [1%R].
Proof.
  pose (h := hyp (9 # 10) [2;1]%Z 0 false 0). exists sort_R, 2, (map IZR [2;1]%Z), h, (real_set ex_prune).
  destruct (exec_fit (9 # 10) 0 0 false [2;1]%Z ex_prune) as [v|e] eqn:E; [|vm_compute in E; discriminate].
  destruct (exec_fit (9 # 10) 0 0 true [2;1]%Z ex_prune) as [v'|e] eqn:E'; [|vm_compute in E'; discriminate].
  destruct (exec_run 2 (9 # 10) 0 0 false [2;1]%Z ex_prune v) with (srt := sort_R) as (Hs & t & Ht & Hr);
    auto using sort_R_sorts; try lia; [split; reflexivity|].
  destruct (exec_run 2 (9 # 10) 0 0 true [2;1]%Z ex_prune v') with (srt := sort_R) as (Hs' & t' & Ht' & Hr');
    auto using sort_R_sorts; try lia; [split; reflexivity|].
  exists t, t', (qX (fun _ _ => 0%Z)). split; [exact Hs|]. split; [reflexivity|]. split; [exact Ht|]. split; [exact Ht'|].
  rewrite (clf_predict_exec _ _ _ _ Hr), (clf_predict_exec _ _ _ _ Hr').
  vm_compute in E. injection E as <-. vm_compute in E'. injection E' as <-. split; reflexivity.
Qed.

(** With pruning, renaming the classes can change the splits (C53). *)
Lemma relabel_prune_changes : exists srt k prior h d pi t t',
  clf_setting srt k prior h d /\ h_prune h = true /\ class_perm k pi /\ permuted k pi prior prior /\
  clf_fit srt h d = Ok t /\ clf_fit srt h (map_target (relabel pi) d) = Ok t' /\
  length (leaves t) = 1 /\ length (leaves t') = 2.
Proof.
  pose (h := hyp (9 # 10) [1;1]%Z 0 true 0). exists sort_R, 2, (map IZR [1;1]%Z), h, (real_set ex_swap), swap2.
  destruct (exec_fit (9 # 10) 0 0 true [1;1]%Z ex_swap) as [v|e] eqn:E; [|vm_compute in E; discriminate].
  destruct (exec_fit (9 # 10) 0 0 true [1;1]%Z (map_target swap2 ex_swap)) as [v'|e] eqn:E'; [|vm_compute in E'; discriminate].
  destruct (exec_run 2 (9 # 10) 0 0 true [1;1]%Z ex_swap v) with (srt := sort_R) as (Hs & t & Ht & Hr);
    auto using sort_R_sorts; try lia; [split; reflexivity|].
  destruct (exec_run 2 (9 # 10) 0 0 true [1;1]%Z (map_target swap2 ex_swap) v') with (srt := sort_R) as (Hs' & t' & Ht' & Hr');
    auto using sort_R_sorts; try lia; [split; reflexivity|].
  exists t, t'. split; [exact Hs|]. split; [reflexivity|]. split.
  { unfold class_perm, swap2. split; intros; lia. }
  split.
  { split; [reflexivity|]. split; [reflexivity|]. intros c Hc. destruct c as [|[|c]]; [reflexivity|reflexivity|lia]. }
  split; [exact Ht|]. split; [rewrite real_set_relabel; exact Ht'|].
  destruct (shape_drop _ _ Hr) as [_ ->]. destruct (shape_drop _ _ Hr') as [_ ->].
  vm_compute in E. injection E as <-. vm_compute in E'. injection E' as <-. split; reflexivity.
Qed.

(** Rows sharing the leaf of a query, by computation. *)
Lemma path_of_drop {D S P} right (t : tree D S P) : path_of right (drop_scores t) = path_of right t.
Proof. induction t as [i|i d a b c1 IH1 c2 IH2]; simpl; auto. rewrite IH1, IH2. auto. Qed.
Lemma path_of_R Zq q t : path_of (fun s => goes_right (qX Zq) s q) (tree_R t) = path_of (fun s => pgo2 (zfeat 0) Zq s q) t.
Proof.
  induction t as [i|i d a b c1 IH1 c2 IH2]; auto. cbn [tree_R path_of]. rewrite IH1, IH2.
  unfold goes_right, pgo2, qX. cbn [sd_dim sd_val f_ge zfeat].
  destruct (zroute (Zq q (sd_dim d)) (sd_val d)) as [_ E2].
  change (half_Z (sd_dim d) (sd_val d)) with (half_Z 0 (sd_val d)). rewrite E2. auto.
Qed.
Definition exec_mates (d : tset Z nat) (t : tree (pdesc string Z) Q (list Z)) (Zq : nat -> nat -> Z) (q : nat) : list nat :=
  same_leaf (fun s => pgo2 (zfeat 0) Zq s q) (pgo2 (zfeat 0) (ts_X d)) t (all_rows d).
Lemma mates_exec d (t : ctree) v Zq q : drop_scores t = tree_R v ->
  leaf_mates (real_set d) t (qX Zq) q = exec_mates d v Zq q.
Proof.
  intros E. unfold leaf_mates, exec_mates, same_leaf. apply filter_ext. intros j.
  assert (H : forall Z0 j0, path_of (fun s => goes_right (qX Z0) s j0) t = path_of (fun s => pgo2 (zfeat 0) Z0 s j0) v).
  { intros Z0 j0. rewrite <- path_of_drop, E. apply path_of_R. }
  rewrite H. change (ts_X (real_set d)) with (qX (ts_X d)). rewrite H. auto.
Qed.

(** delta > 0: the prior recorded in a leaf already contains the leaf's counts, so posterior minus
    prior is zero although the leaf holds samples (C47). *)
Lemma raw_leaf_delta : exists srt k prior h d t Xq pr po,
  clf_setting srt k prior h d /\ clf_fit srt h d = Ok t /\
  raw_leaf_data t Xq 1 = [Some (Some pr, po)] /\
  count_label 0 (targets d (leaf_mates d t Xq 0)) = 2 /\ (nth 0 po 0 - nth 0 pr 0 = 0)%R.
Proof.
  exists sort_R, 2, (map IZR [1;1]%Z), (ex_delta_h false), (real_set ex_delta).
  destruct (exec_fit (9 # 10) 1 0 false [1;1]%Z ex_delta) as [v|e] eqn:E; [|vm_compute in E; discriminate].
  destruct (exec_run 2 (9 # 10) 1 0 false [1;1]%Z ex_delta v) with (srt := sort_R) as (Hs & t & Ht & Hr);
    auto using sort_R_sorts; try lia; [split; reflexivity|].
  exists t, (qX (fun _ _ => 0%Z)), (map IZR [3;1]%Z), (map IZR [3;1]%Z).
  split; [exact Hs|]. split; [exact Ht|].
  rewrite (raw_leaf_exec _ _ _ _ Hr), (mates_exec _ _ _ _ _ Hr).
  vm_compute in E. injection E as <-. split; [reflexivity|]. split.
  - replace (exec_mates _ _ _ _) with [0; 1] by (vm_compute; reflexivity).
    change (targets (real_set ex_delta) [0; 1]) with (map INR [0; 0]). rewrite zcount_label. reflexivity.
  - simpl. lra.
Qed.
