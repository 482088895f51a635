(** * VerboseEx: concrete outputs. *)
From Coq Require Import QArith Qreals Reals String.
From Verif Require Import Prelude Lists Tree Perp RealOps Clf Reg Api Hyper Spec OptSpec ClfSpec ApiSpec HyperSpec Exec Witness RegWitness HyperExec HyperWitness
  Str Verbose VerboseProofs VerboseRows.
Local Open Scope nat_scope.

Lemma trained_drop s1 s2 (u : ctree) v : drop_scores u = tree_R v -> forall side, trained s1 s2 side u = trained s1 s2 side v.
Proof.
  revert v. induction u as [i|i d a b c1 IH1 c2 IH2]; intros [j|j e a' b' c1' c2'] E side; cbn [drop_scores tree_R] in E; try discriminate.
  - injection E as ->. reflexivity.
  - injection E as -> _ E1 E2. cbn [trained info]. rewrite (IH1 _ E1), (IH2 _ E2). reflexivity.
Qed.
Lemma trained_htreeR s1 s2 v : forall side, trained s1 s2 side (htreeR v) = trained s1 s2 side v.
Proof. induction v as [i|i d a b c1 IH1 c2 IH2]; intros side; cbn [htreeR trained info]; [reflexivity|]. rewrite IH1, IH2. reflexivity. Qed.

Definition ex1_lines : list text := map lit
  ["Training level 0 root with          9 data points"; "Training level 1 RHS with          6 data points"]%string.
Lemma ex1_run : exists t t' : _, map line_text (trained "LHS" "RHS" "root" t)%string = ex1_lines /\
  clf_fit sort_R (ex1_h false) (real_set ex1) = Ok t' /\ drop_scores t' = tree_R t.
Proof.
  destruct (exec_fit (9 # 10) 0 0 false [1;1;1]%Z ex1) as [t|e] eqn:E; [|vm_compute in E; discriminate E].
  destruct (exec_run 3 (9 # 10) 0 0 false [1;1;1]%Z ex1 t) with (srt := sort_R) as (Hs & t' & Ht & Hr); auto; try lia.
  - split; reflexivity.
  - apply sort_R_sorts.
  - exists t, t'. split; [|split; [exact Ht|exact Hr]]. vm_compute in E. injection E as <-. vm_compute. reflexivity.
Qed.
Lemma ex1_prints prn : fst (clf_fit_v sort_R (ex1_h prn) true (real_set ex1)) = ex1_lines.
Proof.
  destruct ex1_run as (t & t' & Hl & Ht & Hr). rewrite <- Hl, <- (trained_drop _ _ _ _ Hr).
  apply clf_v_trained. change (unpruned (ex1_h prn)) with (ex1_h false). exact Ht.
Qed.
Definition hx1_lines : list text := map lit
  ["Training level 0 root with          9 data points"; "Training level 1 front with          6 data points"]%string.
Lemma hx1_run delta : exists v, map line_text (trained "back " "front" "root" v)%string = hx1_lines /\
  hclf_fit vecR sort_R (same_cands hx1_cs) (hx1_h delta false) (hsetR hx1) = Ok (htreeR v).
Proof.
  destruct (hexec (9 # 10) 0 false [1;1;1]%Z (same_cands hx1_cs) hx1) as [v|e] eqn:E; [|vm_compute in E; discriminate E].
  destruct (hexec_sound 3 (9 # 10) 0 delta false [1;1;1]%Z (same_cands hx1_cs) hx1 v) as [Hs Ht]; auto;
    [split; reflexivity|discriminate|apply unitb_ok; reflexivity|].
  exists v. split; [|exact Ht]. clear Ht. vm_compute in E. injection E as <-. vm_compute. reflexivity.
Qed.
Lemma hx1_prints delta prn : fst (hclf_fit_v vecR sort_R (same_cands hx1_cs) (hx1_h delta prn) true (hsetR hx1)) = hx1_lines.
Proof.
  destruct (hx1_run delta) as (v & Hl & Ht). rewrite <- Hl, <- trained_htreeR.
  apply hclf_v_trained. change (unpruned (hx1_h delta prn)) with (hx1_h delta false). exact Ht.
Qed.
