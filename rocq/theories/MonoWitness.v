(** * MonoWitness: away from the training rows the answers may change under an increasing feature change. *)
From Coq Require Import QArith Qreals FunctionalExtensionality.
From Verif Require Import Prelude Tree Perp RealOps Clf Reg Api Spec ClfSpec ClfProofs ApiSpec Exec Witness MonoSpec.
Local Open Scope nat_scope.

Definition cube : nat -> R -> R := fun _ x => (x * x * x)%R.
Lemma cube_increasing : increasing cube.
Proof.
  intros f a b H. unfold cube. assert (0 < (b - a) * ((a + b / 2) ^ 2 + 3 / 4 * b ^ 2))%R.
  - apply Rmult_lt_0_compat; [lra|]. destruct (Req_dec b 0) as [->|Hb].
    + assert (0 < a ^ 2)%R. { rewrite <- Rsqr_pow2. apply Rsqr_pos_lt. lra. } nra.
    + assert (0 < b ^ 2)%R. { rewrite <- Rsqr_pow2. apply Rsqr_pos_lt. auto. } pose proof (pow2_ge_0 (a + b / 2)). lra.
  - nra.
Qed.

Definition ex_far : tset Z nat := zset [[0]; [4]]%Z [0; 1] (ts_names ex_delta).
Definition ex_far3 : tset Z nat := zset [[0]; [64]]%Z [0; 1] (ts_names ex_delta).
Lemma far_cube : map_features cube (real_set ex_far) = real_set ex_far3.
Proof.
  unfold map_features, real_set. f_equal.
  extensionality i. extensionality f. unfold map_X, cube. simpl.
  destruct i as [|[|[|i]]]; destruct f as [|[|f]]; simpl; lra.
Qed.

Lemma mono_query : exists srt k prior h d g t t' (Xq : nat -> nat -> R),
  clf_setting srt k prior h d /\ h_prec h = 0%R /\ increasing g /\
  clf_fit srt h d = Ok t /\ clf_fit srt h (map_features g d) = Ok t' /\
  clf_predict t Xq 1 = [1%R] /\ clf_predict t' (map_X g Xq) 1 = [0%R].
Proof.
  destruct (exec_fit (9 # 10) 0 0 false [1;1]%Z ex_far) as [v|e] eqn:E; [|vm_compute in E; discriminate].
  destruct (exec_fit (9 # 10) 0 0 false [1;1]%Z ex_far3) as [v3|e] eqn:E3; [|vm_compute in E3; discriminate].
  destruct (exec_run 2 (9 # 10) 0 0 false [1;1]%Z ex_far v) with (srt := sort_R) as (Hs & t & Ht & Hr);
    auto using sort_R_sorts; try lia; [split; reflexivity|].
  destruct (exec_run 2 (9 # 10) 0 0 false [1;1]%Z ex_far3 v3) with (srt := sort_R) as (_ & t3 & Ht3 & Hr3);
    auto using sort_R_sorts; try lia; [split; reflexivity|].
  exists sort_R, 2, (map IZR [1;1]%Z), (hyp (9 # 10) [1;1]%Z 0 false 0), (real_set ex_far), cube, t, t3, (qX (fun _ _ => 3%Z)).
  split; [exact Hs|]. split; [reflexivity|]. split; [exact cube_increasing|]. split; [exact Ht|].
  rewrite far_cube. split; [exact Ht3|]. split.
  - rewrite (clf_predict_exec _ _ _ _ Hr). vm_compute in E. injection E as <-. reflexivity.
  - replace (map_X cube (qX (fun _ _ => 3%Z))) with (qX (fun _ _ => 27%Z)).
    + rewrite (clf_predict_exec _ _ _ _ Hr3). vm_compute in E3. injection E3 as <-. reflexivity.
    + extensionality i. extensionality f. unfold map_X, cube, qX. simpl. lra.
Qed.
Lemma mono_case prn : clf_setting sort_R 3 (map IZR [1; 1; 1]%Z) (ex1_h prn) (real_set ex1) /\ h_prec (ex1_h prn) = 0%R /\ increasing cube /\
  exists t, clf_fit sort_R (ex1_h prn) (real_set ex1) = Ok t /\ height t = 2 /\ length (leaves t) = 3.
Proof. destruct (ex1_fit prn) as (Hs & H). split; [exact Hs|]. split; [reflexivity|]. split; [exact cube_increasing|exact H]. Qed.
