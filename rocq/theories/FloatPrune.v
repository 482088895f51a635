(** * FloatPrune: pruning of trees fitted in float64 (base.py:147-165). *)
From Coq Require Import Reals Lra Permutation String.
From Flocq Require Import Core BinarySingleNaN.
From Verif Require Import Prelude Lists Tree Perp RealOps Api Spec PruneProofs StructProofs PredictProofs OptProofs PropLemmas ApiSpec Routing FloatFeat FloatProofs NumApi NumLemmas FloatReg FloatClf
  FloatSum FloatClfSum FloatClfProofs FloatClfFit FloatWitness NumWitness FloatRegFit.
Local Open Scope R_scope.

(** Siblings that are leaves are told apart by [differ]. *)
Fixpoint siblings_differ {D S P} (differ : ninfo P -> ninfo P -> Prop) (t : tree D S P) : Prop :=
  match t with
  | Leaf _ => True
  | Split _ _ _ _ c1 c2 =>
      match c1, c2 with Leaf i, Leaf j => differ i j | _, _ => True end /\ siblings_differ differ c1 /\ siblings_differ differ c2
  end.
(** The answers of two leaves: numbers, or classes. *)
Definition number_differs (i j : ninfo fng) : Prop :=
  ~ (is_finite (fn_mu (i_post i)) = true /\ is_finite (fn_mu (i_post j)) = true /\ B2R (fn_mu (i_post i)) = B2R (fn_mu (i_post j))).
Definition numbers_differ (i j : ninfo fng) : Prop :=
  is_finite (fn_mu (i_post i)) = true /\ is_finite (fn_mu (i_post j)) = true /\ B2R (fn_mu (i_post i)) <> B2R (fn_mu (i_post j)).
Definition class_differs (i j : ninfo (list float64)) : Prop := f_argmax (i_post i) <> f_argmax (i_post j).

Lemma irreducible_differ {D S P} same (differ : ninfo P -> ninfo P -> Prop) (t : tree D S P) : (forall i j, same i j = false -> differ i j) -> irreducible same t -> siblings_differ differ t.
Proof.
  intros H. induction t as [i|i d a b c1 IH1 c2 IH2]; [exact (fun _ => I)|]. intros (H0 & H1 & H2). cbn [siblings_differ].
  split; [|auto]. destruct c1, c2; try exact I. apply H. apply H0; reflexivity.
Qed.
Lemma differ_irreducible {D S P} same (differ : ninfo P -> ninfo P -> Prop) (t : tree D S P) : (forall i j, differ i j -> same i j = false) -> siblings_differ differ t -> irreducible same t.
Proof.
  intros H. induction t as [i|i d a b c1 IH1 c2 IH2]; [exact (fun _ => I)|]. intros (H0 & H1 & H2). cbn [irreducible].
  split; [|auto]. intros i1 i2 -> ->. apply H. exact H0.
Qed.
Lemma freg_same_false i j : freg_same i j = false -> number_differs i j.
Proof.
  unfold freg_same, freg_predict_leaf, number_differs. intros H (F1 & F2 & E). rewrite Beqb_correct in H by assumption.
  rewrite E, Req_bool_true in H by reflexivity. discriminate.
Qed.
Lemma freg_differ i j : numbers_differ i j -> freg_same i j = false.
Proof. intros (F1 & F2 & E). unfold freg_same, freg_predict_leaf. rewrite Beqb_correct by assumption. apply Req_bool_false. exact E. Qed.
Lemma cl64_same_false i j : cl64_same i j = false <-> class_differs i j.
Proof. unfold cl64_same, cl64_predict_leaf, class_differs. apply Nat.eqb_neq. Qed.

Section Prune.
Context {A V P : Type} (F : feat A V) (L : lik float64 P float64) (same : ninfo P -> ninfo P -> bool).
Variables (lvl : nat) (pa : option P) (d : tset A float64) (t t' : tree (pdesc string V) float64 P).
Hypothesis E : perp_fit F L same false lvl pa d = Ok t.
Hypothesis E' : perp_fit F L same true lvl pa d = Ok t'.
Lemma pruned_apart (differ : ninfo P -> ninfo P -> Prop) : (forall i j, same i j = false -> differ i j) -> siblings_differ differ t'.
Proof. intros H. destruct (fit_pruned F L same lvl pa d t t' E E') as [_ Hi]. exact (irreducible_differ same differ t' H Hi). Qed.
Lemma apart_kept (differ : ninfo P -> ninfo P -> Prop) : (forall i j, differ i j -> same i j = false) -> siblings_differ differ t -> t' = t.
Proof.
  intros H Hd. destruct (fit_pruned F L same lvl pa d t t' E E') as [-> _]. apply irreducible_prune. exact (differ_irreducible same differ t H Hd).
Qed.
End Prune.

(** ** A symmetric prior *)
Lemma label_count_split lab c (f : nat -> bool) (rows : list nat) : label_count lab c rows = (label_count lab c (filter f rows) + label_count lab c (filter (fun i => negb (f i)) rows))%nat.
Proof.
  unfold label_count. induction rows as [|i rows IH]; [reflexivity|]. cbn [filter].
  destruct (f i); cbn [negb filter]; destruct (Nat.eqb (lab i) c); cbn [length]; lia.
Qed.
Lemma majority_mergeable {S'} lab k n (X : nat -> nat -> float64) (t : tree (pdesc string float64) S' (list float64)) : forall rows,
  (forall e i, In e (map (fun s => fst (fst s)) (splits t)) -> (i < n)%nat -> f_right X e i = negb (f_left X e i)) -> (forall i, In i rows -> (i < n)%nat) ->
  nodes_ok (f_left X) (f_right X) (node_majority lab k) rows t ->
  mergeable_ok cl64_same (fun i => cl64_predict_leaf (i_post i)) t.
Proof.
  induction t as [i|i s a b c1 IH1 c2 IH2]; intros rows Hx Hr; [exact (fun _ => I)|]. intros (H0 & H1 & H2). cbn [mergeable_ok].
  assert (Hsub : forall f j, In j (filter f rows) -> (j < n)%nat) by (intros f j Hj; apply filter_In in Hj; apply Hr; tauto).
  split; [|split].
  - intros Es. unfold cl64_same in Es. apply Nat.eqb_eq in Es.
    assert (N1 : node_majority lab k (filter (f_left X s) rows) c1) by (destruct c1; apply H1).
    assert (N2 : node_majority lab k (filter (f_right X s) rows) c2) by (destruct c2; apply H2).
    rewrite (filter_ext_in (f_right X s) (fun j => negb (f_left X s j))) in N2 by (intros j Hj; apply Hx; [left; reflexivity|apply Hr, Hj]).
    destruct H0 as [K0 M0]. destruct N1 as [K1 M1]. destruct N2 as [K2 M2]. cbn [info] in *. rewrite <- Es in *.
    set (c := cl64_predict_leaf (i_post (info c1))) in *. set (p := cl64_predict_leaf (i_post i)) in *.
    assert (Ep : c = p); [|rewrite <- Ep; split; reflexivity].
    pose proof (label_count_split lab c (f_left X s) rows) as S1. pose proof (label_count_split lab p (f_left X s) rows) as S2.
    destruct (M0 c K1) as [A1 A2]. destruct (M1 p K0) as [B1 B2]. destruct (M2 p K0) as [C1 C2]. lia.
  - eapply IH1; [|apply (Hsub (f_left X s))|exact H1]. intros e j He. apply Hx. right. rewrite map_app, in_app_iff. left. exact He.
  - eapply IH2; [|apply (Hsub (f_right X s))|exact H2]. intros e j He. apply Hx. right. rewrite map_app, in_app_iff. right. exact He.
Qed.
Definition cl64_predict (t : tree (pdesc string float64) float64 (list float64)) (Xq : nat -> nat -> float64) (m : nat) : list nat :=
  predict_rows (f_left Xq) (f_right Xq) (fun i => cl64_predict_leaf (i_post i)) t m 0%nat.
Theorem symmetric_prune fsum flog fgammaln fbetaln fpow pp delta p srt (d : tset float64 float64) lab k w pa lvl t t' :
  Beqb delta f_zero = true -> (0 < k)%nat /\ (Z.of_nat k <= 2 ^ 20)%Z ->
  cl64_get_prior pa (ts_n d) (ts_dim d) = repeat w k -> is_finite w = true -> 0 <= B2R w <= bpow radix2 50 ->
  (Z.of_nat (ts_n d) <= 2 ^ 50)%Z -> (forall i, (i < ts_n d)%nat -> ts_y d i = f_nat (lab i) /\ (lab i < k)%nat) ->
  Bltb p f0 = false -> sorts fleb srt -> tset_ok d -> finite_entries 53 1024 (ts_X d) (ts_n d) (ts_dim d) ->
  separable 53 1024 prec64_pos prec64_lt p (ts_X d) (ts_n d) (ts_dim d) ->
  perp_fit (feat_f p srt) (cl64_lik fsum flog fgammaln fbetaln fpow pp delta) cl64_same false lvl pa d = Ok t ->
  perp_fit (feat_f p srt) (cl64_lik fsum flog fgammaln fbetaln fpow pp delta) cl64_same true lvl pa d = Ok t' ->
  forall Xq m, (forall q c, (q < m)%nat -> (c < ts_dim d)%nat -> is_nan (Xq q c) = false) -> cl64_predict t' Xq m = cl64_predict t Xq m.
Proof.
  intros H1 H2 H3 H4 H5 H6 H7 H8 Hs Hok Hfin Hsep E E' Xq m Hq.
  pose proof (float_majority fsum flog fgammaln fbetaln fpow pp delta p srt cl64_same d lab k w pa false lvl t H1 H2 H3 H4 H5 H6 H7 H8 Hs Hok Hfin Hsep E) as HM.
  destruct (fit_pruned _ _ cl64_same lvl pa d t t' E E') as [-> _].
  assert (Hthr : forall (Y : nat -> nat -> float64) e q, In e (map (fun s => fst (fst s)) (splits t)) -> (forall c, (c < ts_dim d)%nat -> is_nan (Y q c) = false) ->
    f_right Y e q = negb (f_left Y e q)).
  { intros Y e q He Hn. destruct (fit_thresholds (feat_f p srt) _ _ _ _ _ d t (fun key n => proj1 (Hs key n)) Hok E e He) as (r & s & Hrn & Hsn & Hc & Hv).
    unfold f_left, f_right. apply Bleb_negb; [apply Hn; exact Hc|]. rewrite Hv. cbn [f_mid feat_f]. apply mid_not_nan; auto. lia. }
  unfold cl64_predict. rewrite !predict_rows_spec. apply map_ext_in. intros q Hin. apply in_seq in Hin.
  rewrite prune_lookup; [reflexivity| |].
  - intros e He. apply Hthr; [exact He|]. intros c Hc. apply Hq; [lia|exact Hc].
  - eapply majority_mergeable with (n := ts_n d) (rows := seq 0 (ts_n d)); [|intros i Hi; apply in_seq in Hi; lia|exact HM].
    intros e i He Hi. apply Hthr; [exact He|]. intros c Hc. specialize (Hfin i c Hi Hc). destruct (ts_X d i c); try discriminate; reflexivity.
Qed.
