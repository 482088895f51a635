(** * ImportanceProofs *)
From Coq Require Import Permutation.
From Verif Require Import Prelude Lists Tree Perp RealOps Clf Reg Api Spec PredictProofs FitProofs
  StructProofs PruneProofs OptSpec OptProofs OptFit OptNodes ClfSpec ClfProofs RegSpec RegProofs ApiSpec ApiProofs NodeFacts SplitFacts
  Importance ImportanceSpec.
Local Open Scope nat_scope.

Lemma vsum_app a b : vsum (a ++ b) = (vsum a + vsum b)%R.
Proof. induction a as [|x a IH]; simpl; [unfold vsum; simpl; lra|]. unfold vsum in *. simpl. rewrite IH. lra. Qed.
Lemma set_nth_len {A} k (v : A) l : length (set_nth k v l) = length l.
Proof. revert k. induction l as [|x l IH]; intros [|k]; simpl; auto. Qed.
Lemma nth_set_nth {A} k j (v d : A) l : k < length l -> nth j (set_nth k v l) d = if Nat.eqb j k then v else nth j l d.
Proof.
  revert k j. induction l as [|x l IH]; intros [|k] [|j] H; simpl in *; auto; try lia.
  apply IH. lia.
Qed.
Lemma vsum_set_nth k v l : k < length l -> vsum (set_nth k v l) = (vsum l - nth k l 0 + v)%R.
Proof.
  revert k. induction l as [|x l IH]; intros [|k] H; cbn [length] in H; try lia.
  - cbn [set_nth nth]. rewrite !vsum_cons. lra.
  - cbn [set_nth nth]. rewrite !vsum_cons, IH by lia. lra.
Qed.

Section General.
Context {P : Type}.
Notation tree := (tree (pdesc string R) R P).

Lemma gain_on_split i s a b (c1 c2 : tree) f :
  gain_on f (Split i s a b c1 c2) = ((if Nat.eqb (sd_dim s) f then b - a else 0) + gain_on f c1 + gain_on f c2)%R.
Proof.
  unfold gain_on. cbn [splits filter feature]. destruct (Nat.eqb (sd_dim s) f); cbn [map gain];
    rewrite ?vsum_cons, filter_app, map_app, vsum_app; lra.
Qed.
Lemma total_gain_split i s a b (c1 c2 : tree) :
  total_gain (Split i s a b c1 c2) = ((b - a) + total_gain c1 + total_gain c2)%R.
Proof. unfold total_gain. cbn [splits map gain]. rewrite vsum_cons, map_app, vsum_app. lra. Qed.

Lemma update_importance_spec (t : tree) : forall fi,
  (forall s, In s (splits t) -> feature s < length fi) ->
  exists fi', update_importance t fi = Ok fi' /\ length fi' = length fi /\
    (forall f, f < length fi -> nth f fi' 0%R = (nth f fi 0 + gain_on f t)%R) /\
    vsum fi' = (vsum fi + total_gain t)%R.
Proof.
  induction t as [i|i s a b c1 IH1 c2 IH2]; intros fi H.
  - exists fi. split; [reflexivity|]. split; auto. split.
    + intros f _. unfold gain_on. simpl. unfold vsum. simpl. lra.
    + unfold total_gain. simpl. change (vsum []) with 0%R. lra.
  - cbn [update_importance]. assert (Hs : sd_dim s < length fi) by (apply (H (s, a, b)); left; auto).
    rewrite (proj2 (Nat.ltb_lt _ _) Hs).
    destruct (IH1 (set_nth (sd_dim s) (nth (sd_dim s) fi 0 + (b - a))%R fi)) as (f1 & E1 & L1 & N1 & V1).
    { intros u Hu. rewrite set_nth_len. apply H. cbn [splits]. right. apply in_app_iff. auto. }
    rewrite E1. cbn [rbind]. rewrite set_nth_len in L1, N1.
    destruct (IH2 f1) as (f2 & E2 & L2 & N2 & V2).
    { intros u Hu. rewrite L1. apply H. cbn [splits]. right. apply in_app_iff. auto. }
    exists f2. split; [exact E2|]. split; [congruence|]. split.
    + intros f Hf. rewrite N2 by congruence. rewrite N1 by auto. rewrite nth_set_nth by auto.
      rewrite gain_on_split, (Nat.eqb_sym f). destruct (Nat.eqb_spec (sd_dim s) f) as [->|]; lra.
    + rewrite V2, V1, vsum_set_nth, total_gain_split by auto. lra.
Qed.

Lemma vsum_repeat0 n : vsum (repeat 0%R n) = 0%R.
Proof. induction n as [|n IH]; cbn [repeat]; auto. rewrite vsum_cons, IH. lra. Qed.
Lemma nth_repeat0 n f : nth f (repeat 0%R n) 0%R = 0%R.
Proof. revert f. induction n; intros [|f]; simpl; auto. Qed.
Lemma vsum_pos l : l <> [] -> (forall x, In x l -> 0 < x)%R -> (0 < vsum l)%R.
Proof.
  destruct l as [|x l]; [congruence|]. intros _ H. rewrite vsum_cons.
  assert (0 <= vsum l)%R; [|specialize (H x (or_introl eq_refl)); lra].
  assert (H' : forall x, In x l -> (0 < x)%R) by (intros; apply H; right; auto). clear H.
  induction l as [|y l IH]; [unfold vsum; simpl; lra|]. rewrite vsum_cons.
  assert (0 < y)%R by (apply H'; left; auto). assert (0 <= vsum l)%R; [|lra]. apply IH. intros z Hz. apply H'. right. auto.
Qed.
Lemma vsum_div l s : vsum (map (fun x => x / s)%R l) = (vsum l / s)%R.
Proof.
  induction l as [|x l IH]; cbn [map]; [unfold vsum; simpl; unfold Rdiv; lra|].
  rewrite !vsum_cons, IH. unfold Rdiv. lra.
Qed.

Lemma importance_spec n_dim (t : tree) : i_n_dim (info t) = Some n_dim -> splits t <> [] ->
  (forall s, In s (splits t) -> feature s < n_dim /\ (0 < gain s)%R) ->
  exists v, feature_importance t = Ok (map Some v) /\ is_importance n_dim t v.
Proof.
  intros Hn Hne H. unfold feature_importance. rewrite Hn.
  destruct (update_importance_spec t (repeat 0%R n_dim)) as (fi & E & L & N & V).
  { intros s Hs. rewrite repeat_length. apply H; auto. }
  rewrite repeat_length in *. rewrite E. cbn [rbind]. rewrite vsum_repeat0, Rplus_0_l in V.
  assert (Ht : (0 < total_gain t)%R).
  { unfold total_gain. apply vsum_pos.
    - destruct (splits t); simpl; congruence.
    - intros x Hx. apply in_map_iff in Hx as (s & <- & Hs). apply H; auto. }
  assert (Hgpos : forall f, (exists s, In s (splits t) /\ feature s = f) -> (0 < gain_on f t)%R).
  { intros f (s & Hs & <-). apply vsum_pos.
    - intros E0. apply map_eq_nil in E0. assert (Hin : In s (filter (fun s0 => Nat.eqb (feature s0) (feature s)) (splits t))).
      { apply filter_In. split; auto. apply Nat.eqb_refl. }
      rewrite E0 in Hin. contradiction.
    - intros x Hx. apply in_map_iff in Hx as (s' & <- & Hs'). apply filter_In in Hs' as [Hs' _]. apply H; auto. }
  assert (Hg0 : forall f, ~ (exists s, In s (splits t) /\ feature s = f) -> gain_on f t = 0%R).
  { intros f Hf. unfold gain_on. replace (filter _ _) with (@nil (pdesc string R * R * R)); [reflexivity|].
    symmetry. destruct (filter _ _) as [|s l] eqn:E0; auto. exfalso. apply Hf. exists s.
    assert (Hin : In s (s :: l)) by (left; auto). rewrite <- E0 in Hin. apply filter_In in Hin as [A B].
    split; auto. apply Nat.eqb_eq; auto. }
  exists (map (fun x => x / total_gain t)%R fi). split.
  - f_equal. rewrite map_map. apply map_ext. intros x. unfold np_div. rewrite V.
    unfold Reqb. destruct (Req_EM_T (total_gain t) 0); [lra|reflexivity].
  - split; [rewrite map_length; auto|]. split; [rewrite vsum_div, V; field; lra|].
    intros f Hf.
    assert (En : nth f (map (fun x => x / total_gain t)%R fi) 0%R = (gain_on f t / total_gain t)%R).
    { rewrite (nth_indep _ 0%R (0 / total_gain t)%R) by (rewrite map_length; lia).
      rewrite (map_nth (fun x => x / total_gain t)%R). rewrite N, nth_repeat0 by auto. f_equal. lra. }
    rewrite En. assert (Hi : (0 < / total_gain t)%R) by (apply Rinv_0_lt_compat; auto).
    assert (Hdec : (exists s, In s (splits t) /\ feature s = f) \/ ~ (exists s, In s (splits t) /\ feature s = f)).
    { destruct (existsb (fun s => Nat.eqb (feature s) f) (splits t)) eqn:Eb.
      - left. apply existsb_exists in Eb as (s & A & B). exists s. split; auto. apply Nat.eqb_eq; auto.
      - right. intros (s & A & B). assert (existsb (fun s => Nat.eqb (feature s) f) (splits t) = true); [|congruence].
        apply existsb_exists. exists s. split; auto. apply Nat.eqb_eq; auto. }
    destruct Hdec as [Hy|Hno].
    + specialize (Hgpos f Hy). assert (0 < gain_on f t / total_gain t)%R by (apply Rmult_lt_0_compat; auto).
      split; [lra|]. split; [tauto|reflexivity].
    + rewrite (Hg0 f Hno). replace (0 / total_gain t)%R with 0%R by (unfold Rdiv; lra).
      split; [lra|]. split; [|reflexivity]. split; [lra|tauto].
Qed.
End General.

(** Per-node facts as facts about the list of splits. *)
Lemma nodes_ok_splits {D S P} left right (Pr : list nat -> tree D S P -> Prop) (Q : D * S * S -> Prop) (t : tree D S P) :
  (forall rows i d a b c1 c2, Pr rows (Split i d a b c1 c2) -> Q (d, a, b)) ->
  forall rows, nodes_ok left right Pr rows t -> forall s, In s (splits t) -> Q s.
Proof.
  intros HQ. induction t as [i|i d a b c1 IH1 c2 IH2]; intros rows H s Hs; [contradiction|].
  destruct H as (H & H1 & H2). cbn [splits] in Hs. destruct Hs as [<-|Hs]; [eauto|].
  apply in_app_iff in Hs as [Hs|Hs]; eauto.
Qed.
Lemma best_split_gain {P} pp prec (ev : P -> list R -> R) dflt d (t : tree (pdesc string R) R P) :
  every_node d t (best_split_node pp prec ev dflt d) ->
  forall s, In s (splits t) -> feature s < ts_dim d /\ (0 < gain s)%R.
Proof.
  intros H. refine (nodes_ok_splits _ _ _ (fun s => feature s < ts_dim d /\ (0 < gain s)%R) t _ _ H).
  intros rows i s a b c1 c2 (_ & x & y & _ & (Hf & _) & Hb & _). simpl. split; [exact Hf|lra].
Qed.

Lemma opt_n_dim {A V Y P S NM} leb gap mid (T : tgt Y P S) (X : nat -> nat -> A) y (names : list NM) n_dim lvl pa rows
    (t : tree (pdesc NM V) S P) :
  opt leb gap mid T X y names n_dim lvl pa rows t -> i_n_dim (info t) = Some n_dim.
Proof. destruct 1; reflexivity. Qed.

Lemma clf_root_dim srt k prior h d t : clf_setting srt k prior h d -> clf_fit srt h d = Ok t -> i_n_dim (info t) = Some (ts_dim d).
Proof.
  intros H E. destruct (clf_fit_opt srt k prior h d H) as (t' & t0 & E' & Ho & _ & Hpr).
  rewrite E in E'. injection E' as <-. rewrite (pruned_info _ _ Hpr). eapply opt_n_dim; eauto.
Qed.
Lemma reg_root_dim srt prior h d t : reg_setting srt prior h d -> reg_fit srt h d = Ok t -> i_n_dim (info t) = Some (ts_dim d).
Proof.
  intros H E. destruct (reg_fit_opt srt prior h d H) as (t' & t0 & E' & Ho & _ & Hpr).
  rewrite E in E'. injection E' as <-. rewrite (pruned_info _ _ Hpr). eapply opt_n_dim; eauto.
Qed.

Lemma clf_importance srt k prior h d t : clf_setting srt k prior h d -> clf_fit srt h d = Ok t -> splits t <> [] ->
  exists v, feature_importance t = Ok (map Some v) /\ is_importance (ts_dim d) t v.
Proof.
  intros H E Hne. apply importance_spec; auto.
  - eapply clf_root_dim; eauto.
  - exact (best_split_gain _ _ _ _ _ _ (clf_best_splits srt k prior h d t H E)).
Qed.
Lemma reg_importance srt prior h d t : reg_setting srt prior h d -> reg_fit srt h d = Ok t -> splits t <> [] ->
  exists v, feature_importance t = Ok (map Some v) /\ is_importance (ts_dim d) t v.
Proof.
  intros H E Hne. apply importance_spec; auto.
  - eapply reg_root_dim; eauto.
  - exact (best_split_gain _ _ _ _ _ _ (reg_best_splits srt prior h d t H E)).
Qed.
(** Without a split every entry is 0/0. *)
Lemma leaf_importance {P} (t : tree (pdesc string R) R P) n_dim : i_n_dim (info t) = Some n_dim -> splits t = [] ->
  feature_importance t = Ok (repeat None n_dim).
Proof.
  intros Hn Hs. destruct t as [i|i s a b c1 c2]; [|discriminate]. unfold feature_importance. rewrite Hn. cbn [update_importance rbind].
  rewrite vsum_repeat0. f_equal. clear. induction n_dim as [|n IH]; cbn [repeat map]; auto. rewrite IH. f_equal.
  unfold np_div, Reqb. destruct (Req_EM_T 0 0); [auto|lra].
Qed.
