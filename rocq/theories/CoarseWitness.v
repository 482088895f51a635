(** * CoarseWitness: the tree of Example 1 loses a split when the partition prior is lowered. *)
From Coq Require Import QArith Qreals.
From Verif Require Import Prelude Tree Perp RealOps Clf Reg Api Spec ClfSpec ClfProofs ApiSpec TrainSpec Exec Witness.
Local Open Scope nat_scope.

Lemma coarse_case prn : clf_setting sort_R 3 (map IZR [1; 1; 1]%Z) (ex1_h prn) (real_set ex1) /\ (0 < 1 / 2 <= h_pp (ex1_h prn))%R /\
  exists t t', clf_fit sort_R (ex1_h prn) (real_set ex1) = Ok t /\
    clf_fit sort_R (mkHyper (1 / 2) (h_prior (ex1_h prn)) (h_delta (ex1_h prn)) (h_prune (ex1_h prn)) (h_prec (ex1_h prn))) (real_set ex1) = Ok t' /\
    length (leaves t) = 3 /\ length (leaves t') = 2.
Proof.
  destruct (ex1_fit prn) as (Hs & t & Et & _ & Hl). split; [exact Hs|].
  split. { change (h_pp (ex1_h prn)) with (Q2R (9 # 10)). unfold Q2R. simpl. lra. }
  assert (H : exists t', exec_fit (1 # 2) 0 0 prn [1;1;1]%Z ex1 = Ok t' /\ length (leaves t') = 2).
  { destruct prn; vm_compute; eexists; split; reflexivity. }
  destruct H as (v & E & Hv).
  destruct (exec_run 3 (1 # 2) 0 0 prn [1;1;1]%Z ex1 v) with (srt := sort_R) as (_ & t' & Ht & Hr); auto; try lia.
  - split; reflexivity.
  - apply sort_R_sorts.
  - exists t, t'. split; [exact Et|]. split.
    + replace (1 / 2)%R with (Q2R (1 # 2)) by (unfold Q2R; simpl; lra). exact Ht.
    + split; [exact Hl|]. destruct (shape_drop _ _ Hr) as [_ ->]. exact Hv.
Qed.

(** With an asymmetric prior the answers can be worse than always answering the same class. *)
Definition ex_skew : tset Z nat := zset [[0]; [0]; [0]]%Z [1; 1; 0] (ts_names ex_delta).
Lemma skew_hits : exists srt k prior h d t c,
  clf_setting srt k prior h d /\ h_delta h = 0%R /\ clf_fit srt h d = Ok t /\ c < k /\
  hits (ts_n d) (ts_y d) (clf_predict t (ts_X d) (ts_n d)) < count_label c (targets d (all_rows d)).
Proof.
  destruct (exec_fit (9 # 10) 0 0 true [3;1]%Z ex_skew) as [v|e] eqn:E; [|vm_compute in E; discriminate].
  destruct (exec_run 2 (9 # 10) 0 0 true [3;1]%Z ex_skew v) with (srt := sort_R) as (Hs & t & Ht & Hr);
    auto using sort_R_sorts; try lia; [split; reflexivity|].
  exists sort_R, 2, (map IZR [3;1]%Z), (hyp (9 # 10) [3;1]%Z 0 true 0), (real_set ex_skew), t, 1.
  split; [exact Hs|]. split; [reflexivity|]. split; [exact Ht|]. split; [lia|].
  assert (P : clf_predict t (ts_X (real_set ex_skew)) 3 = map INR [0; 0; 0]).
  { change (ts_X (real_set ex_skew)) with (qX (ts_X ex_skew)). rewrite (clf_predict_exec _ _ _ _ Hr). vm_compute in E. injection E as <-. reflexivity. }
  change (ts_n (real_set ex_skew)) with 3. rewrite P. unfold hits, targets, all_rows, count_label.
  change (ts_n (real_set ex_skew)) with 3. cbn [seq map filter].
  change (ts_y (real_set ex_skew) 0) with (INR 1). change (ts_y (real_set ex_skew) 1) with (INR 1). change (ts_y (real_set ex_skew) 2) with (INR 0).
  cbn [nth]. rewrite !label_INR. cbn [Nat.eqb length].
  assert (N : Reqb (INR 0) (INR 1) = false).
  { destruct (Reqb (INR 0) (INR 1)) eqn:Q; [|reflexivity]. apply Reqb_true in Q. simpl in Q. lra. }
  rewrite N. destruct (Reqb (INR 0) (INR 0)); cbn [length]; lia.
Qed.
Lemma largest_case : (forall c, c < 3 -> nth c (map IZR [1; 1; 1]%Z) 0%R = 1%R) /\ largest_class 2 (map INR [1; 0; 1]) = 2.
Proof.
  split.
  - intros c Hc. destruct c as [|[|[|c]]]; try reflexivity. lia.
  - unfold largest_class, count_label. cbn [map seq filter]. rewrite !label_INR. reflexivity.
Qed.
