(** * NonfiniteLemmas: what the checks let through, the answers of a poisoned model, and an example. *)
From Coq Require Import Reals.
From Verif Require Import Prelude Tree Perp RealOps Reg Hyper Api Spec ApiSpec Validate RegWitness Exec Witness PropCases Nonfinite NonfiniteSpec NonfiniteProofs.
Local Open Scope nat_scope.

Lemma reg_check_shape y y' : a_shape y = a_shape y' -> reg_check_target y = reg_check_target y'.
Proof. intros E. unfold reg_check_target, ndim. rewrite E. auto. Qed.

Lemma all_equal_nan (u v : list fl) : (forall b, In b v -> b <> None) -> 0 < length v -> all_equal (u ++ [None]) v = false.
Proof.
  intros Hv Lv. unfold all_equal. destruct (Nat.eqb_spec (length (u ++ [None])) (length v)) as [El|El].
  - rewrite app_length in El. cbn in El. apply not_true_is_false. intros Hf.
    pose proof (proj1 (forallb_forall _ _) Hf) as Hg.
    destruct (exists_last (l := v)) as (v' & b & ->); [destruct v; [inversion Lv|discriminate]|].
    rewrite app_length in El. cbn in El. specialize (Hg (None, b)). cbn [fst snd fl_eqb] in Hg.
    enough (false = true) by discriminate. apply Hg. clear -El.
    revert v' El. induction u as [|a u IH]; intros [|a' v'] El; cbn [app combine In length] in *; try lia; auto; right; apply IH; lia.
  - destruct u as [|a u].
    + cbn [app]. destruct v as [|b v]; [inversion Lv|]. reflexivity.
    + cbn [app]. destruct (u ++ [None]) as [|c w] eqn:Eu; [destruct u; discriminate|].
      destruct v as [|b [|b' v]]; try reflexivity. rewrite <- Eu. cbn [forallb]. rewrite forallb_app. cbn [forallb fl_eqb].
      rewrite !andb_false_r. reflexivity.
Qed.
Lemma clf_check_nan {P} n_classes (prior : option P) (y : arr fl) :
  (forall p, 0 < n_classes p) -> In None (a_data y) -> exists e, clf_check_target n_classes prior y = Err e.
Proof.
  intros Hc Hn. unfold clf_check_target. destruct (negb (Nat.eqb (ndim y) 1)); [eexists; reflexivity|]. destruct prior as [p|]; [|eexists; reflexivity].
  specialize (Hc p). unfold np_unique. replace (existsb is_nan (a_data y)) with true by (symmetry; apply existsb_exists; exists None; auto).
  rewrite all_equal_nan; [eexists; reflexivity|..].
  - intros b Hb. apply in_map_iff in Hb. destruct Hb as (? & <- & _). discriminate.
  - rewrite map_length, seq_length. auto.
Qed.

Theorem xreg_poison srt h d i : permutes srt -> tset_ok d -> i < ts_n d -> ~ number (ts_y d i) ->
  exists l v, xreg_fit srt h d = Ok (Leaf l) /\ ~ number v /\ ((exists j, j < ts_n d /\ ts_y d j = NaN) -> v = NaN) /\
    forall Xq m, xreg_predict (Leaf l) Xq m = repeat v m.
Proof.
  intros Hp Hd Hi Hy. destruct (xreg_leaf srt h d i Hp Hd Hi Hy) as (l & E & _ & H1 & H2).
  exists l, (x_mu (i_post l)). repeat (split; auto). intros Xq m. apply (leaf_predict _ _ (fun i => x_mu (i_post i))).
Qed.
Theorem xhreg_poison {C} (pre : C -> list R) srt cands h d i : permutes srt -> i < hs_n d -> ~ number (hs_y d i) ->
  exists l v, xhreg_fit pre srt cands h d = Ok (Leaf l) /\ ~ number v /\ ((exists j, j < hs_n d /\ hs_y d j = NaN) -> v = NaN) /\
    forall Xq m, xhreg_predict (Leaf l) Xq m = repeat v m.
Proof.
  intros Hp Hi Hy. destruct (xhreg_leaf pre srt cands h d i Hp Hi Hy) as (l & E & _ & H1 & H2).
  exists l, (x_mu (i_post l)). repeat (split; auto). intros Xq m. apply (leaf_predict _ _ (fun i => x_mu (i_post i))).
Qed.

(** A tree with two leaves becomes one leaf when one of its four targets is missing. *)
Lemma poison_case prn a : ~ number a ->
  (exists t, xreg_fit sort_R (half_h prn) (as_floats step_set) = Ok t /\ length (leaves t) = 2) /\
  permutes sort_R /\ tset_ok (poisoned 3 a (as_floats step_set)) /\ 3 < ts_n (poisoned 3 a (as_floats step_set)) /\
  ~ number (ts_y (poisoned 3 a (as_floats step_set)) 3) /\
  exists l, xreg_fit sort_R (half_h prn) (poisoned 3 a (as_floats step_set)) = Ok (Leaf l).
Proof.
  intros Ha. destruct (step_fit prn) as ((Hs & Hh & Ht & _) & t & E & _ & El).
  assert (H : permutes sort_R) by (apply sorts_permutes; auto).
  assert (Hok : tset_ok (poisoned 3 a (as_floats step_set))) by exact Ht.
  assert (H3 : 3 < ts_n (poisoned 3 a (as_floats step_set))) by (cbn; lia).
  split.
  { exists (map_tree finite_ng Fin t). split; [rewrite xreg_finite, E; auto|]. rewrite <- El. clear. induction t; cbn; auto.
    rewrite !app_length in *. lia. }
  split; auto. split; auto. split; auto. split; auto.
  destruct (xreg_leaf sort_R (half_h prn) _ 3 H Hok H3 Ha) as (l & El' & _). exists l. auto.
Qed.

Lemma poison_witness : exists srt h d t, permutes srt /\ hyper_ok h /\ tset_ok d /\
  (forall i, i < 3 -> number (ts_y d i)) /\ xreg_fit srt h d = Ok t /\ forall Xq m, xreg_predict t Xq m = repeat NaN m.
Proof.
  assert (Ha : ~ number NaN) by (intros [r E]; discriminate).
  destruct (poison_case false NaN Ha) as (_ & Hp & Hd & H3 & Hn & _).
  destruct (xreg_poison sort_R (half_h false) _ 3 Hp Hd H3 Hn) as (l & v & E & _ & Hv & Hq).
  rewrite Hv in Hq by (exists 3; split; auto).
  exists sort_R, (half_h false), (poisoned 3 NaN (as_floats step_set)), (Leaf l).
  split; auto. split; [apply half_h_ok|]. split; auto. split; auto.
  intros i Hi. cbn [poisoned ts_y]. destruct (Nat.eqb_spec i 3); [lia|]. eexists. reflexivity.
Qed.
