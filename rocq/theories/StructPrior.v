(** * StructPrior: the prior weights of splitting and not splitting a node. *)
From Coq Require Import Permutation Sorted.
From Verif Require Import Prelude Lists Tree Perp RealOps Clf Reg Api Spec FitProofs OptSpec OptProofs OptFit
  ClfSpec ClfProofs RegSpec RegProofs ApiSpec ApiProofs Exec Importance ImportanceSpec ImportanceProofs.
Local Open Scope nat_scope.

Lemma vsum_const {A} (c : R) (l : list A) : vsum (map (fun _ => c) l) = (INR (length l) * c)%R.
Proof. induction l as [|x l IH]; cbn [map length]; [unfold vsum; simpl; lra|]. rewrite vsum_cons, IH, S_INR. lra. Qed.
Lemma vsum_ext {A} (f g : A -> R) l : (forall x, In x l -> f x = g x) -> vsum (map f l) = vsum (map g l).
Proof. intros H. f_equal. apply map_ext_in. auto. Qed.
Lemma vsum_scale {A} (c : R) (f : A -> R) l : vsum (map (fun x => c * f x)%R l) = (c * vsum (map f l))%R.
Proof. induction l as [|x l IH]; cbn [map]; [unfold vsum; simpl; lra|]. rewrite !vsum_cons, IH. lra. Qed.
Lemma vsum_indicator {A} (p : A -> bool) l :
  vsum (map (fun x => if p x then 1 else 0)%R l) = INR (length (filter p l)).
Proof.
  induction l as [|x l IH]; cbn [map filter]; [reflexivity|]. rewrite vsum_cons, IH.
  destruct (p x); cbn [length]; rewrite ?S_INR; lra.
Qed.
Lemma filter_len_le {A} (p : A -> bool) l : length (filter p l) <= length l /\
  (length (filter p l) = length l -> forall x, In x l -> p x = true).
Proof.
  induction l as [|x l [IH1 IH2]]; simpl; [split; [lia|tauto]|].
  destruct (p x) eqn:E; simpl; split; try lia.
  intros H y [<-|Hy]; [exact E|]. apply IH2; [lia|exact Hy].
Qed.
Lemma filter_len_all {A} (p : A -> bool) l : (forall x, In x l -> p x = true) -> length (filter p l) = length l.
Proof. induction l as [|x l IH]; simpl; intros H; auto. rewrite (H x) by auto. simpl. auto. Qed.

(** Total weight of the cuts when feature f has m f of them. *)
Lemma cut_mass q n_dim (m : nat -> nat) : 0 < n_dim ->
  vsum (map (fun f => vsum (map (fun _ => q / (INR (m f) * INR n_dim))%R (seq 0 (m f)))) (seq 0 n_dim)) =
  (q / INR n_dim * INR (length (filter (fun f => 0 <? m f) (seq 0 n_dim))))%R.
Proof.
  intros Hn. assert (0 < INR n_dim)%R by (apply lt_0_INR; auto).
  rewrite <- vsum_indicator, <- vsum_scale. apply vsum_ext. intros f _.
  rewrite vsum_const, seq_length. destruct (Nat.ltb_spec 0 (m f)) as [Hm|Hm].
  - assert (0 < INR (m f))%R by (apply lt_0_INR; auto). field. split; lra.
  - replace (m f) with 0 by lia. simpl. lra.
Qed.

Lemma pow_pp pp lvl : (0 < pp < 1)%R -> (0 < pp ^ (1 + lvl) < 1)%R.
Proof. intros H. apply (Exec.pow_lt1 pp lvl H). Qed.

Section Node.
Variable ev : list R -> R.
Variables pp : R.
Hypothesis Hpp : (0 < pp < 1)%R.
Variables (lvl n_dim : nat) (ks : nat -> list nat) (ys : nat -> list R).
Hypothesis Hn : 0 < n_dim.

Lemma sub_probability_of no_score scores :
  no_score = (ln (1 - pp ^ (1 + lvl)) + ev (ys 0%nat))%R ->
  (forall f, f < n_dim -> scores f =
     map (fun k => ln (pp ^ (1 + lvl) / (INR (length (ks f)) * INR n_dim)) + ev (firstn k (ys f)) + ev (skipn k (ys f)))%R (ks f)) ->
  sub_probability ev n_dim ks ys no_score scores.
Proof.
  intros H0 HS. pose proof (pow_pp pp lvl Hpp) as Hq. assert (Hd : (0 < INR n_dim)%R) by (apply lt_0_INR; auto).
  exists (1 - pp ^ (1 + lvl))%R, (fun f _ => pp ^ (1 + lvl) / (INR (length (ks f)) * INR n_dim))%R.
  split; [lra|]. split; [exact H0|]. split.
  { intros f Hf. rewrite (HS f Hf). split; [apply map_length|]. intros j k Hj. split.
    - assert (0 < length (ks f)) by (destruct (ks f); [destruct j; discriminate|simpl; lia]).
      assert (0 < INR (length (ks f)))%R by (apply lt_0_INR; auto).
      apply Rdiv_lt_0_compat; [lra|]. apply Rmult_lt_0_compat; auto.
    - apply map_nth_error with (f := fun k => (ln (pp ^ (1 + lvl) / (INR (length (ks f)) * INR n_dim)) + ev (firstn k (ys f)) + ev (skipn k (ys f)))%R). exact Hj. }
  cbv zeta. rewrite (cut_mass (pp ^ (1 + lvl)) n_dim (fun f => length (ks f)) Hn).
  set (u := length (filter (fun f => 0 <? length (ks f)) (seq 0 n_dim))).
  destruct (filter_len_le (fun f => 0 <? length (ks f)) (seq 0 n_dim)) as [Hu Hall]. fold u in Hu, Hall. rewrite seq_length in Hu, Hall.
  set (q := (pp ^ (1 + lvl))%R) in *.
  assert (E : (q / INR n_dim * INR u = q * (INR u / INR n_dim))%R) by (unfold Rdiv; lra). rewrite E.
  assert (Hle : (INR u / INR n_dim <= 1)%R).
  { apply le_INR in Hu. apply (Rmult_le_reg_r (INR n_dim)); auto. unfold Rdiv. rewrite Rmult_assoc, Rinv_l by lra. lra. }
  split.
  - assert (q * (INR u / INR n_dim) <= q * 1)%R by (apply Rmult_le_compat_l; lra). lra.
  - split.
    + intros Ht. assert (Hqq : (q * (INR u / INR n_dim) = q * 1)%R) by lra.
      apply Rmult_eq_reg_l in Hqq; [|lra].
      assert (Eu : (INR u = INR n_dim)%R).
      { replace (INR u) with (INR u / INR n_dim * INR n_dim)%R by (field; lra). rewrite Hqq. lra. }
      apply INR_eq in Eu. specialize (Hall Eu). intros f Hf Hnil.
      assert (Hin : In f (seq 0 n_dim)) by (apply in_seq; lia). specialize (Hall f Hin). rewrite Hnil in Hall. discriminate.
    + intros Hne. assert (Eu : u = n_dim).
      { unfold u. rewrite filter_len_all, seq_length; auto. intros f Hf. apply in_seq in Hf. specialize (Hne f). destruct (ks f); [exfalso; apply Hne; auto; lia|auto]. }
      rewrite Eu. unfold Rdiv. rewrite Rinv_r by lra. lra.
Qed.
End Node.

Section Likelihoods.
Variables (pp delta prec : R) (X : nat -> nat -> R) (y : nat -> R) (idxs : list (list nat)).
Hypothesis Hpp : (0 < pp < 1)%R.
Hypothesis Hdelta : (0 <= delta)%R.
Hypothesis Hn : 0 < length idxs.
Let row f := nth f idxs [].
Let ys f := gather y (row f).
Let ks f := split_positions (fun a b => Rgtb (Rabs (b - a)) prec) (gather (fun i => X i f) (row f)).

Lemma ks_range f k : In k (ks f) -> 1 <= k < length (ys f).
Proof. intros H. apply split_positions_range in H. unfold gather in H. rewrite map_length in H. unfold ys, gather. rewrite map_length. exact H. Qed.
Lemma ks_sorted f : StronglySorted lt (ks f).
Proof. exact (positions_sorted (feat_R prec (fun _ _ => [])) X f (row f)). Qed.

Lemma clf_sub_probability k p lvl : clf_pok k p -> (forall f i, In i (row f) -> clf_yok k (y i)) -> row 0 <> [] ->
  sub_probability (fun l => ln (dm_prob p l)) (length idxs) ks ys (clf_no_split pp lvl p (ys 0))
    (fun f => clf_split pp lvl p (length idxs) (ys f) (ks f)).
Proof.
  intros Hp Hy Hne. pose proof (clf_law k pp delta Hdelta) as L.
  assert (HY : forall f, Forall (clf_yok k) (ys f)).
  { intros f. rewrite Forall_forall. intros v Hv. apply in_map_iff in Hv as (i & <- & Hi). eapply Hy; eauto. }
  apply sub_probability_of with (pp := pp) (lvl := lvl); auto.
  - apply (ll_stop _ _ _ _ L lvl p (ys 0) Hp (HY 0)). unfold ys, gather. destruct (row 0); simpl; congruence.
  - intros f Hf. apply (ll_split _ _ _ _ L lvl p (length idxs) (ys f) (ks f) Hp (HY f)); [lia|apply ks_sorted|apply ks_range].
Qed.
Lemma reg_sub_probability p lvl : reg_pok p -> row 0 <> [] ->
  sub_probability (ng_logev p) (length idxs) ks ys (reg_no_split pp lvl p (ys 0))
    (fun f => reg_split pp lvl p (length idxs) (ys f) (ks f)).
Proof.
  intros Hp Hne. pose proof (reg_law pp delta Hdelta) as L.
  assert (HY : forall f, Forall (fun _ : R => True) (ys f)) by (intros f; rewrite Forall_forall; auto).
  apply sub_probability_of with (pp := pp) (lvl := lvl); auto.
  - apply (ll_stop _ _ _ _ L lvl p (ys 0) Hp (HY 0)). unfold ys, gather. destruct (row 0); simpl; congruence.
  - intros f Hf. apply (ll_split _ _ _ _ L lvl p (length idxs) (ys f) (ks f) Hp (HY f)); [lia|apply ks_sorted|apply ks_range].
Qed.
End Likelihoods.
