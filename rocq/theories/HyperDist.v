(** * HyperDist: hyperplane fits when all projections differ (positive parts of C36 and C37). *)
From Coq Require Import Reals Permutation Sorted.
From Verif Require Import Prelude Lists Tree Perp RealOps Clf Reg Api Hyper Spec FitProofs OptSpec OptProofs ClfSpec RegSpec ApiSpec
  HyperSpec ClfProofs RegProofs PruneProofs SplitFacts HyperProofs HyperOpt.
Local Open Scope nat_scope.

(** ** Dot products *)
Lemma dot_comm a : forall b, dot a b = dot b a.
Proof. unfold dot. induction a as [|x a IH]; intros [|z b]; simpl; auto. rewrite (IH b). lra. Qed.
Lemma dot_mid a : forall b v, length a = length b ->
  dot (map2 (fun p q => (p + q) / 2)%R a b) v = ((dot a v + dot b v) / 2)%R.
Proof.
  unfold dot. induction a as [|x a IH]; intros [|z b] [|w v] H; simpl in *; try lra; try discriminate.
  injection H as H. rewrite (IH b v H). lra.
Qed.
Lemma dot_nonneg v : (0 <= dot v v)%R.
Proof. unfold dot. induction v as [|x v IH]; simpl; [lra|]. pose proof (Rle_0_sqr x). unfold Rsqr in *. lra. Qed.
Lemma dot_pos v : forallb (fun x => Reqb x 0) v = false -> (0 < dot v v)%R.
Proof.
  unfold dot. induction v as [|x v IH]; simpl; [discriminate|].
  pose proof (dot_nonneg v) as Hv. unfold dot in Hv.
  destruct (Reqb x 0) eqn:Ex; simpl; intros H.
  - specialize (IH H). pose proof (Rle_0_sqr x). unfold Rsqr in *. lra.
  - apply Reqb_false in Ex. pose proof (Rlt_0_sqr x Ex). unfold Rsqr in *. lra.
Qed.
Lemma dot_scale_l c a : forall b, dot (map (fun x => x * c)%R a) b = (dot a b * c)%R.
Proof. unfold dot. induction a as [|x a IH]; intros [|z b]; simpl; try lra. rewrite IH. lra. Qed.
Lemma dot_zero_set v : v <> [] -> forallb (fun x => Reqb x 0) v = true -> dot (set_nth 0 1%R v) (set_nth 0 1%R v) = 1%R.
Proof.
  destruct v as [|x v]; [congruence|]. intros _. simpl. intros H. apply andb_prop in H as [_ H].
  assert (E : vsum (map2 Rmult v v) = 0%R).
  { clear x. induction v as [|x v IH]; simpl in *; auto. apply andb_prop in H as [H1 H2]. apply Reqb_true in H1. subst x.
    rewrite IH; auto. lra. }
  unfold dot. simpl. rewrite E. lra.
Qed.
Lemma unit_vec_unit v : v <> [] -> length (unit_vec v) = length v /\ dot (unit_vec v) (unit_vec v) = 1%R.
Proof.
  intros Hv. unfold unit_vec. set (v1 := if forallb _ v then _ else v). split.
  - rewrite map_length. unfold v1. destruct (forallb _ v); [apply set_nth_length|auto].
  - assert (Hp : (0 < dot v1 v1)%R).
    { unfold v1. destruct (forallb (fun x => Reqb x 0) v) eqn:E; [rewrite dot_zero_set; auto; lra|apply dot_pos; auto]. }
    unfold Rdiv. rewrite dot_scale_l, dot_comm, dot_scale_l. unfold norm.
    pose proof (sqrt_lt_R0 _ Hp) as Hs. rewrite <- (sqrt_sqrt (dot v1 v1)) at 1 by lra. field. lra.
Qed.

(** ** Strictly sorted rows *)
Lemma sorted_perm_eq (key : nat -> R) (l m : list nat) : Permutation l m ->
  StronglySorted (fun i j => key i < key j)%R l -> StronglySorted (fun i j => key i < key j)%R m -> l = m.
Proof.
  revert m. induction l as [|x l IH]; intros m Hp Hl Hm; [apply Permutation_nil in Hp; auto|].
  destruct m as [|z m]; [apply Permutation_sym, Permutation_nil in Hp; discriminate|].
  inversion Hl as [|? ? Hl1 Hl2]; subst. inversion Hm as [|? ? Hm1 Hm2]; subst.
  assert (x = z).
  { pose proof (Permutation_in x Hp (or_introl eq_refl)) as H1.
    pose proof (Permutation_in z (Permutation_sym Hp) (or_introl eq_refl)) as H2.
    destruct H1 as [H1|H1]; auto. destruct H2 as [H2|H2]; auto.
    rewrite Forall_forall in Hl2, Hm2. specialize (Hl2 z H2). specialize (Hm2 x H1). lra. }
  subst z. f_equal. apply IH; auto. eapply Permutation_cons_inv; eauto.
Qed.

Lemma ssorted_strengthen {B} (Q Q' : B -> B -> Prop) l : NoDup l -> StronglySorted Q l ->
  (forall a b, In a l -> In b l -> a <> b -> Q a b -> Q' a b) -> StronglySorted Q' l.
Proof.
  intros Hn Hs. induction Hs as [|x l Hl IH Hf]; intros H; constructor; inversion Hn; subst.
  - apply IH; auto. intros; apply H; simpl; auto.
  - rewrite Forall_forall in *. intros z Hz. apply H; simpl; auto. congruence.
Qed.

Section Distinct.
Variable prec : R.
Hypothesis Hprec : (0 <= prec)%R.
Variable srt : (nat -> R) -> nat -> list nat.
Hypothesis Hsorts : sorts Rleb srt.
Variable X : nat -> list R.
Variable rows : list nat.
Hypothesis Hnd : NoDup rows.
Variable v : list R.
Hypothesis Hspread : spread prec X v rows.
Notation srows := (sorted_rows srt X rows v).

Lemma sorts_permutes : permutes srt.
Proof. intros key n. apply Hsorts. Qed.

Lemma srows_permutation : Permutation srows rows.
Proof. apply srows_perm. exact sorts_permutes. Qed.

Lemma srows_strict : StronglySorted (fun i j => dot (X i) v < dot (X j) v)%R srows.
Proof.
  assert (H : StronglySorted (fun i j => Rleb (dot (X i) v) (dot (X j) v) = true) srows).
  { unfold sorted_rows. destruct (Hsorts (fun j => dot (X (nth j rows 0)) v) (length rows)) as [_ H].
    induction H as [|k l Hl IH Hf]; simpl; constructor; auto. rewrite Forall_map. exact Hf. }
  eapply ssorted_strengthen; [|exact H|].
  - eapply Permutation_NoDup; [apply Permutation_sym, srows_permutation|auto].
  - intros a b Ha Hb Hne Hle. apply Rleb_true in Hle. destruct (Rle_lt_or_eq_dec _ _ Hle) as [|E]; auto. exfalso.
    assert (Hab : (Rabs (dot (X a) v - dot (X b) v) > prec)%R).
    { apply Hspread; auto; (eapply Permutation_in; [apply srows_permutation|auto]). }
    rewrite E, Rminus_diag_eq, Rabs_R0 in Hab by auto. lra.
Qed.

Lemma candidate_all k : candidate prec X rows v k <-> 1 <= k < length rows.
Proof.
  unfold candidate. split; [tauto|]. intros H. split; auto. apply Hspread; try (apply nth_In; lia).
  intros E. apply (proj1 (NoDup_nth rows 0)) in E; auto; lia.
Qed.
Lemma n_candidates_all m : n_candidates prec X rows v m -> m = length rows - 1.
Proof.
  intros (ks & H1 & <- & H2). rewrite <- (seq_length (length rows - 1) 1). apply NoDup_same_length; auto; [apply seq_NoDup|].
  intros k. rewrite H2, candidate_all, in_seq. lia.
Qed.

(** Cutting the sorted rows between positions [k-1] and [k] separates them at the midpoint. *)
Lemma cut_sides k : 1 <= k < length rows ->
  let c := ((dot (X (nth (k - 1) srows 0%nat)) v + dot (X (nth k srows 0%nat)) v) / 2)%R in
  Permutation (firstn k srows) (side1 X v c rows) /\ Permutation (skipn k srows) (side2 X v c rows).
Proof.
  intros Hk c. pose proof (Permutation_length srows_permutation) as Hl.
  assert (Hn : forall i j, i < j -> j < length srows -> (dot (X (nth i srows 0%nat)) v < dot (X (nth j srows 0%nat)) v)%R).
  { intros i j Hij Hj. apply (StronglySorted_nth (fun i j => dot (X i) v < dot (X j) v)%R srows i j (nth i srows 0%nat) (nth j srows 0%nat));
      [apply srows_strict|auto| |]; apply nth_error_nth'; lia. }
  pose proof (Hn (k - 1) k ltac:(lia) ltac:(lia)) as Hc0.
  assert (H1 : forall i, In i (firstn k srows) -> (dot (X i) v < c)%R).
  { intros i Hi. apply in_firstn_nth in Hi as (j & Hj & Ej).
    assert (dot (X i) v <= dot (X (nth (k - 1) srows 0%nat)) v)%R; [|unfold c; lra].
    rewrite <- (nth_error_nth _ _ 0 Ej). destruct (Nat.eq_dec j (k - 1)) as [->|]; [lra|]. left. apply Hn; lia. }
  assert (H2 : forall i, In i (skipn k srows) -> (c <= dot (X i) v)%R).
  { intros i Hi. apply in_skipn_nth in Hi as (j & Hj & Ej).
    assert (j < length srows) by (apply nth_error_Some; congruence).
    assert (dot (X (nth k srows 0%nat)) v <= dot (X i) v)%R; [|unfold c; lra].
    rewrite <- (nth_error_nth _ _ 0 Ej). destruct (Nat.eq_dec j k) as [->|]; [lra|]. left. apply Hn; lia. }
  assert (F1 : filter (fun i => Rltb (dot (X i) v) c) srows = firstn k srows).
  { rewrite <- (firstn_skipn k srows) at 1. rewrite filter_app.
    rewrite filter_all, filter_none, app_nil_r; auto.
    - intros i Hi. apply Rltb_false. auto.
    - intros i Hi. apply Rltb_true. auto. }
  assert (F2 : filter (fun i => Rgeb (dot (X i) v) c) srows = skipn k srows).
  { rewrite <- (firstn_skipn k srows) at 1. rewrite filter_app.
    rewrite filter_none, filter_all; auto.
    - intros i Hi. apply Rgeb_true. apply Rle_ge. auto.
    - intros i Hi. apply Rgeb_false. auto. }
  split; [rewrite <- F1|rewrite <- F2]; apply Permutation_filter; apply srows_permutation.
Qed.
End Distinct.

(** ** Outcome of an evaluation *)
Section Outcome.
Variable prec : R.
Hypothesis Hprec : (0 <= prec)%R.
Variable value : list R -> list R -> nat -> R.
Hypothesis value_perm : forall a a' b b' m, Permutation a a' -> Permutation b b' -> value a b m = value a' b' m.

Lemma outcome_partition srt X y rows v s dist pl : sorts Rleb srt -> NoDup rows -> spread prec X v rows ->
  (exists dim, forall i, In i rows -> length (X i) = dim) ->
  outcome prec srt value X y rows v s dist pl ->
  s = value (map y (filter (behind X pl) rows)) (map y (filter (before X pl) rows)) (length rows - 1).
Proof.
  intros Hs Hnd Hsp (dim & Hdim) (m & k & Hm & Hk & Ev & _ & En & Eo & _).
  apply (n_candidates_all prec X rows Hnd v Hsp) in Hm. subst m.
  apply (candidate_all prec X rows Hnd v Hsp) in Hk.
  destruct (cut_sides prec Hprec srt Hs X rows Hnd v Hsp k Hk) as [C1 C2].
  set (srows := sorted_rows srt X rows v) in *.
  pose proof (srows_permutation srt Hs X rows v) as Hp. fold srows in Hp.
  assert (Ec : dot (p_normal pl) (p_origin pl) = ((dot (X (nth (k - 1) srows 0%nat)) v + dot (X (nth k srows 0%nat)) v) / 2)%R).
  { rewrite En, Eo, dot_comm. apply dot_mid. pose proof (Permutation_length Hp) as Hl.
    rewrite !Hdim; auto; (eapply Permutation_in; [exact Hp|]; apply nth_In; lia). }
  rewrite Ev. unfold cut_value. fold srows. apply value_perm; apply Permutation_map.
  - eapply Permutation_trans; [exact C1|]. unfold side1, behind.
    rewrite (filter_ext _ (fun i => Rltb (dot (X i) (p_normal pl) - dot (p_normal pl) (p_origin pl)) 0)); [apply Permutation_refl|].
    intros i. rewrite Ec, En. unfold Rltb. repeat destruct (Rlt_dec _ _); auto; lra.
  - eapply Permutation_trans; [exact C2|]. unfold side2, before.
    rewrite (filter_ext _ (fun i => Rgeb (dot (X i) (p_normal pl) - dot (p_normal pl) (p_origin pl)) 0)); [apply Permutation_refl|].
    intros i. rewrite Ec, En. unfold Rgeb, Rleb. repeat destruct (Rle_dec _ _); auto; lra.
Qed.

(** Rows in another order, and possibly another argsort. *)
Lemma outcome_reorder srt srt' X y sigma rows rows' v s dist pl : sorts Rleb srt -> sorts Rleb srt' ->
  NoDup rows -> spread prec X v rows -> Permutation (map sigma rows') rows ->
  outcome prec srt value X y rows v s dist pl ->
  outcome prec srt' value (fun i => X (sigma i)) (fun i => y (sigma i)) rows' v s dist pl.
Proof.
  intros Hs Hs' Hnd Hsp Hp (m & k & Hm & Hk & Ev & Hb & En & Eo & Ed).
  assert (Hnd1 : NoDup (map sigma rows')) by (eapply Permutation_NoDup; [apply Permutation_sym; eauto|auto]).
  assert (Hnd' : NoDup rows') by (eapply NoDup_map_inv; eauto).
  assert (Hsp' : spread prec (fun i => X (sigma i)) v rows').
  { intros i j Hi Hj Hij. apply Hsp; try (eapply Permutation_in; [exact Hp|apply in_map; auto]).
    intros E. apply Hij. clear - Hnd1 Hi Hj E. induction rows' as [|a l IH]; [inversion Hi|]. simpl in Hnd1. inversion Hnd1; subst.
    destruct Hi as [<-|Hi], Hj as [<-|Hj]; auto; exfalso; apply H1; [rewrite E|rewrite <- E]; apply in_map; auto. }
  pose proof (Permutation_length Hp) as Hlen. rewrite map_length in Hlen.
  assert (Esr : map sigma (sorted_rows srt' (fun i => X (sigma i)) rows' v) = sorted_rows srt X rows v).
  { apply (sorted_perm_eq (fun i => dot (X i) v)).
    - eapply Permutation_trans; [apply Permutation_map, srows_permutation; auto|].
      eapply Permutation_trans; [exact Hp|]. apply Permutation_sym, srows_permutation; auto.
    - pose proof (srows_strict prec Hprec srt' Hs' (fun i => X (sigma i)) rows' Hnd' v Hsp') as H.
      induction H as [|a l Hl IH Hf]; simpl; constructor; auto. rewrite Forall_map. exact Hf.
    - apply (srows_strict prec Hprec srt Hs X rows Hnd v Hsp). }
  pose proof (Permutation_length (srows_permutation srt' Hs' (fun i => X (sigma i)) rows' v)) as Hl'.
  assert (Enth : forall j, j < length rows' -> X (sigma (nth j (sorted_rows srt' (fun i => X (sigma i)) rows' v) 0)) = X (nth j (sorted_rows srt X rows v) 0)).
  { intros j Hj. rewrite <- Esr. f_equal.
    rewrite (nth_indep (map sigma _) 0 (sigma 0)); [symmetry; apply map_nth|].
    rewrite map_length. lia. }
  assert (Hc : forall j, candidate prec (fun i => X (sigma i)) rows' v j <-> candidate prec X rows v j).
  { intros j. rewrite (candidate_all prec X rows Hnd v Hsp), (candidate_all prec _ rows' Hnd' v Hsp'). rewrite Hlen. tauto. }
  assert (Hcv : forall j m', cut_value srt' value (fun i => X (sigma i)) (fun i => y (sigma i)) rows' v m' j = cut_value srt value X y rows v m' j).
  { intros j m'. unfold cut_value. rewrite <- Esr. rewrite firstn_map, skipn_map, !map_map. reflexivity. }
  exists m, k. split.
  { destruct Hm as (ks & K1 & K2 & K3). exists ks. repeat split; auto; intros; try (apply Hc, K3; auto). apply K3, Hc; auto. }
  split; [apply Hc; auto|]. split; [rewrite Hcv; auto|]. split.
  { intros k' Hk'. apply Hc in Hk'. rewrite Hcv. auto. }
  split; auto. apply (candidate_all prec X rows Hnd v Hsp) in Hk. split.
  - rewrite Eo. rewrite !Enth by lia. reflexivity.
  - rewrite Ed. apply vsum_perm. rewrite <- (map_map sigma (fun i => Rabs (dot (X i) v - dot v (p_origin pl)))).
    apply Permutation_map. apply Permutation_sym. auto.
Qed.
End Outcome.
