(** * PathWitness: concrete trees for feature importance, structure prior and prediction paths. *)
From Coq Require Import QArith Qreals Permutation Sorted.
From Coq Require String.
From Verif Require Import Prelude Lists Tree Perp RealOps Clf Reg Api Spec PredictProofs OptSpec OptProofs OptFit ClfSpec ClfProofs RegSpec
  ApiSpec ApiProofs Exec Witness RegWitness Importance ImportanceSpec ImportanceProofs StructPrior PathProofs.
Local Open Scope nat_scope.

Section Strings.
Import String.
Open Scope string_scope.
(** Five classes on a line: a tree with three levels of splits. *)
Definition ex_line : tset Z nat :=
  zset [[0];[1];[2];[3];[4];[5];[6];[7];[8];[9]]%Z [0;0;1;1;2;2;3;3;4;4] ["x"].
Definition x_name : string := "x".
(** Two samples that cannot be separated. *)
Definition ex_flat : tset Z nat := zset [[0];[0]]%Z [0;1] ["x"].
End Strings.

Section Transfer.
Variable Zq : nat -> nat -> Z.
Definition zstep (s : pdesc string Z) (b : bool) : nat * string * R * bool := (sd_dim s, sd_name s, half_Z (sd_dim s) (sd_val s), b).
Lemma where_map_ext f g (l : list nat) : (forall x, f x = g x) -> np_where (map f l) = np_where (map g l).
Proof. intros H. rewrite (map_ext f g H). auto. Qed.
Lemma actual_R (v : tree (pdesc string Z) Q (list Z)) : forall idx p,
  actual (goes_left (qX Zq)) (goes_right (qX Zq)) perp_step (tree_R v) idx p =
  actual (pgo1 (zfeat 0) Zq) (pgo2 (zfeat 0) Zq) zstep v idx p.
Proof.
  induction v as [i|i d a b c1 IH1 c2 IH2]; intros idx p; auto. cbn [tree_R actual].
  set (s := mkDesc (sd_dim d) (sd_name d) (half_Z (sd_dim d) (sd_val d))).
  assert (E1 : forall r, goes_left (qX Zq) s r = pgo1 (zfeat 0) Zq d r).
  { intros r. unfold goes_left, pgo1, qX, s. cbn [sd_dim sd_val f_lt zfeat]. apply (zroute (Zq r (sd_dim d)) (sd_val d)). }
  assert (E2 : forall r, goes_right (qX Zq) s r = pgo2 (zfeat 0) Zq d r).
  { intros r. unfold goes_right, pgo2, qX, s. cbn [sd_dim sd_val f_ge zfeat]. apply (zroute (Zq r (sd_dim d)) (sd_val d)). }
  rewrite E1, E2, (map_ext _ _ E1), (map_ext _ _ E2), IH1, IH2. reflexivity.
Qed.
Lemma actual_drop {St} go1 go2 (st : pdesc string R -> bool -> St) (t : ctree) : forall idx p,
  actual go1 go2 st (drop_scores t) idx p = actual go1 go2 st t idx p.
Proof. induction t as [i|i d a b c1 IH1 c2 IH2]; intros idx p; auto. cbn [drop_scores actual]. rewrite IH1, IH2. auto. Qed.
Lemma paths_exec (t : ctree) v m q : drop_scores t = tree_R v -> q < m ->
  nth_error (perp_paths t (qX Zq) m) q = Some (actual (pgo1 (zfeat 0) Zq) (pgo2 (zfeat 0) Zq) zstep v (seq 0 m) q).
Proof.
  intros E Hq. unfold perp_paths. rewrite prediction_paths_actual; auto; [|apply goes_excl].
  rewrite <- actual_drop, E, actual_R. auto.
Qed.
End Transfer.

Lemma line_fit prn : clf_setting sort_R 5 (map IZR [1;1;1;1;1]%Z) (hyp (9 # 10) [1;1;1;1;1]%Z 0 prn 0) (real_set ex_line) /\
  exists t, clf_fit sort_R (hyp (9 # 10) [1;1;1;1;1]%Z 0 prn 0) (real_set ex_line) = Ok t /\ height t = 3 /\ length (leaves t) = 5.
Proof.
  assert (H : exists t, exec_fit (9 # 10) 0 0 prn [1;1;1;1;1]%Z ex_line = Ok t /\ height t = 3 /\ length (leaves t) = 5).
  { destruct prn; vm_compute; eexists; split; reflexivity || (split; reflexivity). }
  destruct H as (t & E & Hh & Hl).
  destruct (exec_run 5 (9 # 10) 0 0 prn [1;1;1;1;1]%Z ex_line t) with (srt := sort_R) as (Hs & t' & Ht & Hr); auto; try lia.
  - split; reflexivity.
  - apply sort_R_sorts.
  - split; auto. exists t'. split; auto. destruct (shape_drop _ _ Hr) as [-> ->]. auto.
Qed.

(** Querying with the training matrix itself: the path reported for row 9 (x = 9) claims x < 7.5. *)
Lemma paths_wrong : exists srt k prior h d t nm,
  clf_setting srt k prior h d /\ clf_fit srt h d = Ok t /\ ts_n d = 10 /\ ts_X d 9 0 = 9%R /\
  nth_error (perp_paths t (ts_X d) 10) 9 = Some [(0, nm, (7 / 2)%R, true); (0, nm, (11 / 2)%R, true); (0, nm, (15 / 2)%R, false)] /\
  row_passes t (ts_X d) 9 [(mkDesc 0 nm (7 / 2)%R, true); (mkDesc 0 nm (11 / 2)%R, true); (mkDesc 0 nm (15 / 2)%R, true)].
Proof.
  pose (h := hyp (9 # 10) [1;1;1;1;1]%Z 0 false 0). exists sort_R, 5, (map IZR [1;1;1;1;1]%Z), h, (real_set ex_line).
  destruct (exec_fit (9 # 10) 0 0 false [1;1;1;1;1]%Z ex_line) as [v|e] eqn:E; [|vm_compute in E; discriminate].
  destruct (exec_run 5 (9 # 10) 0 0 false [1;1;1;1;1]%Z ex_line v) with (srt := sort_R) as (Hs & t & Ht & Hr);
    auto using sort_R_sorts; try lia; [split; reflexivity|].
  exists t, x_name. split; [exact Hs|]. split; [exact Ht|]. split; [reflexivity|]. split; [reflexivity|].
  change (ts_X (real_set ex_line)) with (qX (ts_X ex_line)). rewrite (paths_exec _ t v 10 9 Hr) by lia.
  assert (Hp : row_passes t (qX (ts_X ex_line)) 9 (true_path (goes_left (qX (ts_X ex_line))) (goes_right (qX (ts_X ex_line))) t 9)) by apply real_passes.
  assert (Ed : forall (u : ctree), true_path (goes_left (qX (ts_X ex_line))) (goes_right (qX (ts_X ex_line))) (drop_scores u) 9
    = true_path (goes_left (qX (ts_X ex_line))) (goes_right (qX (ts_X ex_line))) u 9).
  { induction u as [i|i d a b c1 IH1 c2 IH2]; auto. cbn [drop_scores true_path]. rewrite IH1, IH2. auto. }
  rewrite <- Ed, Hr in Hp.
  assert (Er : forall u, true_path (goes_left (qX (ts_X ex_line))) (goes_right (qX (ts_X ex_line))) (tree_R u) 9
    = map (fun x => (mkDesc (sd_dim (fst x)) (sd_name (fst x)) (half_Z (sd_dim (fst x)) (sd_val (fst x))), snd x))
        (true_path (pgo1 (zfeat 0) (ts_X ex_line)) (pgo2 (zfeat 0) (ts_X ex_line)) u 9)).
  { induction u as [i|i d a b c1 IH1 c2 IH2]; auto. cbn [tree_R true_path]. rewrite IH1, IH2.
    unfold goes_left, goes_right, pgo1, pgo2, qX. cbn [sd_dim sd_val f_lt f_ge zfeat].
    destruct (zroute (ts_X ex_line 9 (sd_dim d)) (sd_val d)) as [E1 E2].
    change (half_Z (sd_dim d) (sd_val d)) with (half_Z 0 (sd_val d)). rewrite E1, E2.
    destruct (2 * _ <? _)%Z; [reflexivity|]. destruct (_ <=? _)%Z; reflexivity. }
  rewrite Er in Hp.
  vm_compute in E. injection E as <-. split; [reflexivity|exact Hp].
Qed.

Lemma flat_importance : exists srt k prior h d t,
  clf_setting srt k prior h d /\ clf_fit srt h d = Ok t /\ feature_importance t = Ok [None].
Proof.
  pose (h := hyp (9 # 10) [1;1]%Z 0 true 0). exists sort_R, 2, (map IZR [1;1]%Z), h, (real_set ex_flat).
  destruct (exec_fit (9 # 10) 0 0 true [1;1]%Z ex_flat) as [v|e] eqn:E; [|vm_compute in E; discriminate].
  destruct (exec_run 2 (9 # 10) 0 0 true [1;1]%Z ex_flat v) with (srt := sort_R) as (Hs & t & Ht & Hr);
    auto using sort_R_sorts; try lia; [split; reflexivity|].
  exists t. split; [exact Hs|]. split; [exact Ht|].
  pose proof (clf_root_dim _ _ _ _ _ _ Hs Ht) as Hd.
  apply (leaf_importance t 1); [exact Hd|].
  vm_compute in E. injection E as <-. destruct t as [i|i s a b c1 c2]; [reflexivity|discriminate].
Qed.
Lemma splits_leaves {D S P} (t : tree D S P) : length (leaves t) = 1 + length (splits t).
Proof. induction t as [i|i d a b c1 IH1 c2 IH2]; simpl; auto. rewrite !app_length. lia. Qed.
Lemma ex1_importance prn : clf_setting sort_R 3 (map IZR [1;1;1]%Z) (ex1_h prn) (real_set ex1) /\
  exists t, clf_fit sort_R (ex1_h prn) (real_set ex1) = Ok t /\ length (splits t) = 2.
Proof.
  destruct (ex1_fit prn) as (Hs & t & Ht & _ & Hl). split; auto. exists t. split; auto. rewrite splits_leaves in Hl. lia.
Qed.
(** A node with one usable feature out of two. *)
Definition half_X (i f : nat) : R := match f with 0 => INR i | _ => 0%R end.
Lemma half_usable : reg_pok p1 /\ (0 < 1 / 2 < 1)%R /\
  split_positions (fun a b => Rgtb (Rabs (b - a)) 0) (gather (fun i => half_X i 0) [0; 1; 2]) = [1; 2] /\
  split_positions (fun a b => Rgtb (Rabs (b - a)) 0) (gather (fun i => half_X i 1) [0; 1; 2]) = [].
Proof.
  split; [exact p1_ok|]. split; [lra|]. unfold split_positions, gather, adjacent, half_X. cbn [map].
  assert (E1 : Rgtb (Rabs (INR 1 - INR 0)) 0 = true).
  { apply Rltb_true. simpl. replace (1 - 0)%R with 1%R by lra. rewrite Rabs_R1. lra. }
  assert (E2 : Rgtb (Rabs (INR 2 - INR 1)) 0 = true).
  { apply Rltb_true. simpl. replace (1 + 1 - 1)%R with 1%R by lra. rewrite Rabs_R1. lra. }
  assert (E3 : Rgtb (Rabs (0 - 0)) 0 = false).
  { apply Rltb_false. replace (0 - 0)%R with 0%R by lra. rewrite Rabs_R0. lra. }
  rewrite E1, E2, E3. split; reflexivity.
Qed.
