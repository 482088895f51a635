(** * InfluenceProofs: features without importance do not matter for predictions. *)
From Coq Require Import Reals Lra.
From Verif Require Import Prelude Lists Tree Perp RealOps Clf Reg Api Spec PredictProofs ClfSpec RegSpec ApiSpec ApiProofs Importance ImportanceSpec ImportanceProofs
  Hyper HyperSpec HyperProofs HyperLemmas ClfProofs InfluenceSpec.
Local Open Scope nat_scope.

(** ** Perpendicular trees *)
Lemma lookup_same {D S P O} (l l' r r' : D -> nat -> bool) (val : ninfo P -> O) (t : tree D S P) q :
  (forall s, In s (splits t) -> l (fst (fst s)) q = l' (fst (fst s)) q /\ r (fst (fst s)) q = r' (fst (fst s)) q) ->
  lookup l r val t q = lookup l' r' val t q.
Proof.
  induction t as [i|i s a b c1 IH1 c2 IH2]; intros H; [reflexivity|]. cbn [lookup]. cbn [splits] in H.
  destruct (H (s, a, b) (or_introl eq_refl)) as [A B]. cbn [fst] in A, B. rewrite A, B.
  rewrite IH1, IH2; [reflexivity| |]; intros x Hx; apply H; right; apply in_app_iff; auto.
Qed.
Lemma unused_predict {S P O} (val : ninfo P -> O) (t : tree (pdesc string R) S P) f Xq Xq' m o :
  (forall s, In s (splits t) -> sd_dim (fst (fst s)) <> f) -> same_but f Xq Xq' ->
  predict_rows (goes_left Xq) (goes_right Xq) val t m o = predict_rows (goes_left Xq') (goes_right Xq') val t m o.
Proof.
  intros H Hs. rewrite !predict_rows_spec. apply map_ext. intros q. rewrite (lookup_same _ (goes_left Xq') _ (goes_right Xq') val t q); [reflexivity|].
  intros s Hin. unfold goes_left, goes_right. rewrite (Hs q (sd_dim (fst (fst s)))) by auto. auto.
Qed.
Lemma no_split_on {P} (t : tree (pdesc string R) R P) n v f : i_n_dim (info t) = Some n ->
  (splits t <> [] -> exists w, feature_importance t = Ok (map Some w) /\ is_importance n t w) ->
  feature_importance t = Ok v -> no_importance f v -> forall s, In s (splits t) -> sd_dim (fst (fst s)) <> f.
Proof.
  intros Hn H E Hv s Hs. destruct (H ltac:(destruct (splits t); [destruct Hs|discriminate])) as (w & Ew & Hl & _ & Hw). rewrite E in Ew. injection Ew as ->.
  intros Ef. assert (nth_error w f = Some 0%R) as N.
  { destruct Hv as [Hv|Hv]; rewrite nth_error_map in Hv; destruct (nth_error w f); cbn in Hv; congruence. }
  assert (f < n) as Hf by (rewrite <- Hl; apply nth_error_Some; congruence).
  destruct (Hw f Hf) as (_ & Hp & _). rewrite (nth_error_nth _ _ _ N) in Hp.
  enough (0 < 0)%R by lra. apply Hp. exists s. split; auto. destruct s as [[s a] b]. exact Ef.
Qed.
Lemma clf_influence srt k prior h d t v f Xq Xq' m : clf_setting srt k prior h d -> clf_fit srt h d = Ok t -> feature_importance t = Ok v ->
  no_importance f v -> same_but f Xq Xq' ->
  clf_predict t Xq m = clf_predict t Xq' m /\ clf_predict_proba t Xq m = clf_predict_proba t Xq' m.
Proof.
  intros H E Ev Hv Hs. pose proof (no_split_on t _ v f (clf_root_dim srt k prior h d t H E) (clf_importance srt k prior h d t H E) Ev Hv) as Hn.
  split; eapply unused_predict; eauto.
Qed.
Lemma reg_influence srt prior h d t v f Xq Xq' m : reg_setting srt prior h d -> reg_fit srt h d = Ok t -> feature_importance t = Ok v ->
  no_importance f v -> same_but f Xq Xq' -> reg_predict t Xq m = reg_predict t Xq' m.
Proof.
  intros H E Ev Hv Hs. pose proof (no_split_on t _ v f (reg_root_dim srt prior h d t H E) (reg_importance srt prior h d t H E) Ev Hv) as Hn.
  eapply unused_predict; eauto.
Qed.

(** ** Hyperplane trees *)
Lemma dot_nil_l n : dot [] n = 0%R. Proof. reflexivity. Qed.
Lemma dot_cons a x b y : dot (a :: x) (b :: y) = (a * b + dot x y)%R.
Proof. reflexivity. Qed.
Lemma dot_except n : forall x x' f, length x = length x' -> (forall g, g <> f -> nth g x 0%R = nth g x' 0%R) -> nth f n 0%R = 0%R -> dot x n = dot x' n.
Proof.
  induction n as [|w n IH]; intros x x' f L E Z; [destruct x, x'; reflexivity|].
  destruct x as [|a x], x' as [|a' x']; try discriminate; [reflexivity|]. rewrite !dot_cons. injection L as L. destruct f as [|f].
  - cbn in Z. subst w. rewrite !Rmult_0_r. f_equal. assert (x = x') as ->; [|reflexivity].
    apply (nth_ext _ _ 0%R 0%R); auto. intros g _. apply (E (S g)). discriminate.
  - assert (a = a') as -> by (apply (E 0); discriminate). f_equal. apply (IH x x' f); auto. intros g Hg. apply (E (S g)). lia.
Qed.
Lemma hunused_predict {S P O} (val : ninfo P -> O) (t : tree (plane (list R) (list R)) S P) f Xq Xq' m o :
  (forall s, In s (splits t) -> nth f (p_normal (fst (fst s))) 0%R = 0%R) -> same_rows_but f Xq Xq' ->
  predict_rows (behind Xq) (before Xq) val t m o = predict_rows (behind Xq') (before Xq') val t m o.
Proof.
  intros H Hs. rewrite !predict_rows_spec. apply map_ext. intros q. rewrite (lookup_same _ (behind Xq') _ (before Xq') val t q); [reflexivity|].
  intros s Hin. unfold behind, before. destruct (Hs q) as [L E]. rewrite (dot_except (p_normal (fst (fst s))) (Xq q) (Xq' q) f) by auto. auto.
Qed.
Lemma vsum_zero (l : list R) : (forall x, In x l -> (0 <= x)%R) -> vsum l = 0%R -> forall x, In x l -> x = 0%R.
Proof.
  induction l as [|a l IH]; intros H E x Hx; [destruct Hx|]. rewrite vsum_cons in E.
  assert (forall z, In z l -> (0 <= z)%R) as Hl by (intros; apply H; right; auto).
  assert (0 <= vsum l)%R. { clear - Hl. induction l as [|b l IH]; [cbn; lra|]. rewrite vsum_cons. pose proof (Hl b (or_introl eq_refl)). specialize (IH (fun z Hz => Hl z (or_intror Hz))). lra. }
  pose proof (H a (or_introl eq_refl)). destruct Hx as [<-|Hx]; [lra|]. apply IH; auto. lra.
Qed.
Lemma hno_weight {P} (t : tree (plane (list R) (list R)) R P) n v f :
  (forall s, In s (splits t) -> (0 < hgain s)%R) ->
  ((exists s, In s (splits t) /\ (0 < hgain s)%R) -> exists w, hyper_feature_importance t = Ok (map Some w) /\ is_himportance n t w) ->
  hyper_feature_importance t = Ok v -> no_importance f v -> forall s, In s (splits t) -> nth f (p_normal (fst (fst s))) 0%R = 0%R.
Proof.
  intros Hg H E Hv s Hs. destruct H as (w & Ew & Hl & Hsum & Hw); [exists s; auto|]. rewrite E in Ew. injection Ew as ->.
  assert (nth_error w f = Some 0%R) as N.
  { destruct Hv as [Hv|Hv]; rewrite nth_error_map in Hv; destruct (nth_error w f); cbn in Hv; congruence. }
  assert (f < n) as Hf by (rewrite <- Hl; apply nth_error_Some; congruence).
  destruct (Hw f Hf) as (_ & Ef). rewrite (nth_error_nth _ _ _ N) in Ef.
  set (tot := vsum (map (fun g => hgain_on g t) (seq 0 n))) in *.
  assert (tot <> 0%R) as Ht.
  { intros Z. assert (forall x, In x w -> x = 0%R) as Hz.
    { intros x Hx. apply In_nth_error in Hx as (g & Hx). assert (g < n) as Hgn by (rewrite <- Hl; apply nth_error_Some; congruence).
      destruct (Hw g Hgn) as [_ Eg]. rewrite (nth_error_nth _ _ _ Hx) in Eg. rewrite Eg. fold tot. rewrite Z. unfold Rdiv. rewrite Rinv_0. ring. }
    assert (vsum w = 0%R). { clear - Hz. induction w as [|a w IH]; [reflexivity|]. rewrite vsum_cons, (Hz a (or_introl eq_refl)), IH; [ring|]. intros; apply Hz; right; auto. }
    lra. }
  assert (hgain_on f t = 0%R) as Z. { apply (Rmult_eq_reg_r (/ tot)); [|apply Rinv_neq_0_compat; auto]. unfold Rdiv in Ef. lra. }
  assert (hweight f s = 0%R) as Zs.
  { apply (vsum_zero (map (hweight f) (splits t))); [|exact Z|apply in_map; auto]. intros x Hx. apply in_map_iff in Hx as (s' & <- & Hs').
    unfold hweight. apply Rmult_le_pos; [left; auto|apply Rabs_pos]. }
  unfold hweight in Zs. pose proof (Hg s Hs). destruct (Rmult_integral _ _ Zs) as [A|A]; [lra|].
  destruct (Req_dec (nth f (p_normal (fst (fst s))) 0%R) 0%R) as [?|B]; auto. apply Rabs_no_R0 in B. contradiction.
Qed.
Lemma hclf_influence {C} (pre : C -> list R) srt cands k prior h d t v f Xq Xq' m : hclf_setting srt k prior h d -> cands_ok pre cands (hs_dim d) ->
  hclf_fit pre srt cands h d = Ok t -> (forall s, In s (splits t) -> (0 < hgain s)%R) -> hyper_feature_importance t = Ok v ->
  no_importance f v -> same_rows_but f Xq Xq' ->
  hclf_predict t Xq m = hclf_predict t Xq' m /\ hclf_predict_proba t Xq m = hclf_predict_proba t Xq' m.
Proof.
  intros H Hc E Hg Ev Hv Hs. pose proof (hno_weight t _ v f Hg (hclf_importance pre srt cands k prior h d t H Hc E) Ev Hv) as Hn.
  split; eapply hunused_predict; eauto.
Qed.
Lemma hreg_influence {C} (pre : C -> list R) srt cands prior h d t v f Xq Xq' m : hreg_setting srt prior h d -> cands_ok pre cands (hs_dim d) ->
  hreg_fit pre srt cands h d = Ok t -> (forall s, In s (splits t) -> (0 < hgain s)%R) -> hyper_feature_importance t = Ok v ->
  no_importance f v -> same_rows_but f Xq Xq' -> hreg_predict t Xq m = hreg_predict t Xq' m.
Proof.
  intros H Hc E Hg Ev Hv Hs. pose proof (hno_weight t _ v f Hg (hreg_importance pre srt cands prior h d t H Hc E) Ev Hv) as Hn.
  eapply hunused_predict; eauto.
Qed.
