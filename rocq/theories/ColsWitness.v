(** * ColsWitness: two equally good columns. *)
From Coq Require Import QArith Qreals FunctionalExtensionality.
From Coq Require String.
From Verif Require Import Prelude Tree Perp RealOps Clf Reg Api Spec PredictProofs PruneProofs ClfSpec ClfProofs ApiSpec ApiProofs SplitFacts Exec Witness ColsSpec.
Local Open Scope nat_scope.

Definition swap01 (f : nat) : nat := match f with 0 => 1 | 1 => 0 | _ => f end.
Lemma swap01_perm : column_perm 2 swap01 swap01.
Proof. intros f Hf. destruct f as [|[|f]]; simpl; lia. Qed.

Section Strings.
Import String.
Open Scope string_scope.
Definition ex_twin : tset Z nat := zset [[0;0];[1;1]]%Z [0;1] ["x";"y"].
Definition ex_twin' : tset Z nat := zset [[0;0];[1;1]]%Z [0;1] ["y";"x"].
(** A useful first and a constant second column. *)
Definition ex_const : tset Z nat := zset [[0;7];[1;7];[2;7]]%Z [0;1;0] ["x";"y"].
End Strings.

Lemma twin_swap : permute_columns swap01 (real_set ex_twin) = real_set ex_twin'.
Proof.
  unfold permute_columns, real_set. f_equal.
  extensionality i. extensionality f. unfold permute_X. simpl.
  destruct i as [|[|[|i]]]; destruct f as [|[|[|f]]]; reflexivity.
Qed.
Lemma twin_query : exists srt k prior h d sigma tau t t' (Xq : nat -> nat -> R),
  clf_setting srt k prior h d /\ column_perm (ts_dim d) sigma tau /\
  clf_fit srt h d = Ok t /\ clf_fit srt h (permute_columns sigma d) = Ok t' /\
  clf_predict t Xq 1 = [0%R] /\ clf_predict t' (permute_X sigma Xq) 1 = [1%R].
Proof.
  destruct (exec_fit (9 # 10) 0 0 false [1;1]%Z ex_twin) as [v|e] eqn:E; [|vm_compute in E; discriminate].
  destruct (exec_fit (9 # 10) 0 0 false [1;1]%Z ex_twin') as [v'|e] eqn:E'; [|vm_compute in E'; discriminate].
  destruct (exec_run 2 (9 # 10) 0 0 false [1;1]%Z ex_twin v) with (srt := sort_R) as (Hs & t & Ht & Hr);
    auto using sort_R_sorts; try lia; [split; reflexivity|].
  destruct (exec_run 2 (9 # 10) 0 0 false [1;1]%Z ex_twin' v') with (srt := sort_R) as (_ & t' & Ht' & Hr');
    auto using sort_R_sorts; try lia; [split; reflexivity|].
  exists sort_R, 2, (map IZR [1;1]%Z), (hyp (9 # 10) [1;1]%Z 0 false 0), (real_set ex_twin), swap01, swap01, t, t',
    (qX (fun _ f => Z.of_nat f)).
  split; [exact Hs|]. split; [exact swap01_perm|]. split; [exact Ht|].
  rewrite twin_swap. split; [exact Ht'|]. split.
  - rewrite (clf_predict_exec _ _ _ _ Hr). vm_compute in E. injection E as <-. reflexivity.
  - change (permute_X swap01 (qX (fun _ f => Z.of_nat f))) with (qX (fun _ f => Z.of_nat (swap01 f))).
    rewrite (clf_predict_exec _ _ _ _ Hr'). vm_compute in E'. injection E' as <-. reflexivity.
Qed.

(** A problem without rivals: the tree of depth 2 splits on the first column only. *)
Lemma no_rival_case : exists t, clf_setting sort_R 2 (map IZR [1;1]%Z) (hyp (9 # 10) [1;1]%Z 0 false 0) (real_set ex_const) /\
  clf_fit sort_R (hyp (9 # 10) [1;1]%Z 0 false 0) (real_set ex_const) = Ok t /\ height t = 2 /\
  column_perm (ts_dim (real_set ex_const)) swap01 swap01 /\
  every_node (real_set ex_const) t (no_rival (h_pp (hyp (9 # 10) [1;1]%Z 0 false 0)) (h_prec (hyp (9 # 10) [1;1]%Z 0 false 0))
    clf_ev (clf_dflt (ts_dim (real_set ex_const))) (real_set ex_const)).
Proof.
  destruct (exec_fit (9 # 10) 0 0 false [1;1]%Z ex_const) as [v|e] eqn:E; [|vm_compute in E; discriminate].
  destruct (exec_run 2 (9 # 10) 0 0 false [1;1]%Z ex_const v) with (srt := sort_R) as (Hs & t & Ht & Hr);
    auto using sort_R_sorts; try lia; [split; reflexivity|].
  exists t. split; [exact Hs|]. split; [exact Ht|]. split.
  { destruct (shape_drop _ _ Hr) as [-> _]. vm_compute in E. injection E as <-. reflexivity. }
  split; [exact swap01_perm|].
  assert (Hc : forall pp prec ev lvl rows f a b v, split_value pp prec ev lvl (real_set ex_const) rows f a b v ->
     Forall (fun i => i < 3) rows -> f = 0).
  { intros pp prec ev lvl rows f a b w (Hf & ((i & Hi & Ea) & (j & Hj & Eb) & Hab & _) & _) Hl.
    rewrite Forall_forall in Hl. apply Hl in Hi. apply Hl in Hj. change (ts_dim (real_set ex_const)) with 2 in Hf.
    destruct f as [|[|f]]; [reflexivity| |lia]. exfalso. simpl in Ea, Eb.
    destruct i as [|[|[|i]]], j as [|[|[|j]]]; simpl in *; try lia; lra. }
  pose proof (clf_best_splits _ _ _ _ _ _ Hs Ht) as Hb. unfold every_node in *.
  assert (Hl : Forall (fun i => i < 3) (all_rows (real_set ex_const))).
  { rewrite Forall_forall. intros i Hi. apply in_seq in Hi. change (ts_n (real_set ex_const)) with 3 in Hi. lia. }
  revert Hl Hb. generalize (all_rows (real_set ex_const)). clear Ht Hr.
  induction t as [i|i s a b c1 IH1 c2 IH2]; intros rows Hl Hb; cbn [nodes_ok] in *.
  - split; exact I.
  - destruct Hb as (Hb & B1 & B2). split.
    + unfold no_rival. unfold best_split_node in Hb. destruct Hb as (_ & x & y & _ & Hv & _).
      rewrite (Hc _ _ _ _ _ _ _ _ _ Hv Hl). intros f a' b' w Hw _. exact (Hc _ _ _ _ _ _ _ _ _ Hw Hl).
    + split; [apply IH1|apply IH2]; auto; rewrite Forall_forall in *; intros r Hr; apply filter_In in Hr; apply Hl; tauto.
Qed.
