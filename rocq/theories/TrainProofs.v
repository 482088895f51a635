(** * TrainProofs: training accuracy, training error and total evidence gain of fitted trees. *)
From Coq Require Import Permutation.
From Verif Require Import Prelude Lists Tree Perp RealOps Clf Reg Api Spec PredictProofs PruneProofs OptSpec OptProofs OptNodes ClfSpec ClfProofs
  RegSpec RegProofs ApiSpec ApiProofs NodeFacts SplitFacts ImportanceSpec StructPrior Hyper HyperProofs HyperSpec HyperLemmas CoarseSpec Coarse TrainSpec.
Local Open Scope nat_scope.

Lemma vsum_nil : vsum [] = 0%R. Proof. reflexivity. Qed.
Lemma vsum_app' a b : vsum (a ++ b) = (vsum a + vsum b)%R.
Proof. induction a as [|x a IH]; cbn [app]; [rewrite vsum_nil; lra|]. rewrite !vsum_cons, IH. lra. Qed.
Lemma vsum_le {A} (f g : A -> R) l : (forall x, In x l -> f x <= g x)%R -> (vsum (map f l) <= vsum (map g l))%R.
Proof.
  induction l as [|x l IH]; cbn [map]; intros H; [lra|]. rewrite !vsum_cons.
  assert (f x <= g x)%R by (apply H; left; reflexivity). assert (vsum (map f l) <= vsum (map g l))%R by (apply IH; intros; apply H; right; assumption). lra.
Qed.
Lemma vsum_filter {A} (p q : A -> bool) (f : A -> R) l : (forall x, In x l -> q x = negb (p x)) ->
  vsum (map f l) = (vsum (map f (filter p l)) + vsum (map f (filter q l)))%R.
Proof.
  induction l as [|x l IH]; intros H; cbn [map filter]; [rewrite vsum_nil; lra|].
  rewrite (H x (or_introl eq_refl)), vsum_cons, IH by (intros; apply H; right; assumption).
  destruct (p x); cbn [negb map]; rewrite vsum_cons; lra.
Qed.

(** ** Sums over the training rows are sums over the leaves *)
Section Sums.
Context {D S P O : Type}.
Variables go1 go2 : D -> nat -> bool.
Hypothesis compl : forall d i, go2 d i = negb (go1 d i).
Variable val : ninfo P -> O.
Variable dflt : O.
Variable F : O -> nat -> R.
Variable H : list nat -> R.
Variable Q : nat -> Prop.

Lemma groups_sum (Pr : list nat -> tree D S P -> Prop) t :
  (forall g i, Pr g (Leaf i) -> (forall j, In j g -> Q j) -> vsum (map (F (val i)) g) = H g) ->
  forall rows, (forall j, In j rows -> Q j) -> nodes_ok go1 go2 Pr rows t ->
  vsum (map (fun j => F (match lookup go1 go2 val t j with Some v => v | None => dflt end) j) rows) =
  vsum (map H (groups go1 go2 rows t)).
Proof.
  intros Hl. induction t as [i|i d a b c1 IH1 c2 IH2]; intros rows HQ Hn.
  - cbn [groups map lookup]. rewrite vsum_cons, vsum_nil, Rplus_0_r. apply Hl; [exact (proj1 Hn)|exact HQ].
  - destruct Hn as (_ & N1 & N2). cbn [groups]. rewrite map_app, vsum_app', <- IH1, <- IH2; auto.
    2,3: intros j Hj; apply filter_In in Hj; apply HQ; tauto.
    rewrite (vsum_filter (go1 d) (go2 d)) by (intros; apply compl). f_equal.
    + apply vsum_ext. intros j Hj. apply filter_In in Hj as [_ Hj]. cbn [lookup]. rewrite compl, Hj. reflexivity.
    + apply vsum_ext. intros j Hj. apply filter_In in Hj as [_ Hj]. cbn [lookup]. rewrite Hj.
      destruct (lookup go1 go2 val c2 j); [reflexivity|]. rewrite compl in Hj. destruct (go1 d j); [discriminate|reflexivity].
Qed.
End Sums.

Section Groups.
Context {D S P : Type}.
Variables go1 go2 : D -> nat -> bool.
Hypothesis compl : forall d i, go2 d i = negb (go1 d i).
Lemma groups_total (f : nat -> R) (t : tree D S P) : forall rows, vsum (map (fun g => vsum (map f g)) (groups go1 go2 rows t)) = vsum (map f rows).
Proof.
  induction t as [i|i d a b c1 IH1 c2 IH2]; intros rows; cbn [groups map].
  - rewrite vsum_cons, vsum_nil. lra.
  - rewrite map_app, vsum_app', IH1, IH2. symmetry. apply vsum_filter. intros. apply compl.
Qed.
Lemma groups_ne (Pr : list nat -> tree D S P -> Prop) t : (forall g u, Pr g u -> g <> []) ->
  forall rows, nodes_ok go1 go2 Pr rows t -> forall g, In g (groups go1 go2 rows t) -> g <> [].
Proof.
  intros Hp. induction t as [i|i d a b c1 IH1 c2 IH2]; intros rows Hn g Hg; cbn [groups] in Hg.
  - destruct Hg as [<-|[]]. eapply Hp, (proj1 Hn).
  - destruct Hn as (_ & N1 & N2). apply in_app_iff in Hg as [Hg|Hg]; eauto.
Qed.
End Groups.

Lemma filter_map_comm {A B} (f : A -> B) (p : B -> bool) l : filter p (map f l) = map f (filter (fun x => p (f x)) l).
Proof. induction l as [|x l IH]; cbn [map filter]; [reflexivity|]. rewrite IH. destruct (p (f x)); reflexivity. Qed.
Lemma nth_map_seq' {O} (f : nat -> O) n i dflt : i < n -> nth i (map f (seq 0 n)) dflt = f i.
Proof.
  intros Hi. rewrite (nth_indep _ dflt (f 0)) by (rewrite map_length, seq_length; exact Hi).
  change (f 0) with (f 0). rewrite (map_nth f (seq 0 n) 0 i), seq_nth by exact Hi. reflexivity.
Qed.

(** ** Classification: majority of the leaf *)
Lemma largest_ge k ys c : c < k -> count_label c ys <= largest_class k ys.
Proof.
  intros Hc. unfold largest_class.
  pose proof (proj1 (list_max_le (map (fun c => count_label c ys) (seq 0 k)) _) (le_n _)) as Hm. rewrite Forall_forall in Hm.
  apply Hm, in_map_iff. exists c. split; [reflexivity|]. apply in_seq. lia.
Qed.
Lemma largest_eq k ys c : c < k -> (forall j, j < k -> count_label j ys <= count_label c ys) -> largest_class k ys = count_label c ys.
Proof.
  intros Hc Hm. apply Nat.le_antisymm; [|apply largest_ge; exact Hc].
  unfold largest_class. apply list_max_le. rewrite Forall_forall. intros x Hx. apply in_map_iff in Hx as (j & <- & Hj).
  apply in_seq in Hj. apply Hm. lia.
Qed.
Lemma majority_leaf k prior w ys : length prior = k -> 0 < k -> (forall c, c < k -> nth c prior 0%R = w) ->
  let c := clf_predict_leaf (add_counts 1 prior ys) in c < k /\ largest_class k ys = count_label c ys.
Proof.
  intros Hl Hk Hw. cbv zeta. unfold clf_predict_leaf.
  destruct (argmax_R (add_counts 1 prior ys)) as [Ha Hm].
  { intros E. apply (f_equal (@length R)) in E. rewrite add_counts_length in E. simpl in E. lia. }
  rewrite add_counts_length in Ha, Hm. split; [lia|]. apply largest_eq; [lia|].
  intros j Hj. destruct (Hm j ltac:(lia)) as [H _]. rewrite !add_counts_nth in H by lia. rewrite !Hw in H by lia.
  apply INR_le. lra.
Qed.
Lemma hits_leaf k (y : nat -> R) g c : (forall j, In j g -> clf_yok k (y j)) ->
  vsum (map (fun i => if Reqb (INR c) (y i) then 1 else 0)%R g) = INR (count_label c (map y g)).
Proof.
  intros Hy. rewrite vsum_indicator. f_equal. unfold count_label. rewrite filter_map_comm, map_length. f_equal. apply filter_ext_in.
  intros i Hi. destruct (Hy i Hi) as (c' & _ & ->). rewrite label_INR.
  destruct (Nat.eqb_spec c' c) as [->|Hne].
  - apply Reqb_true. reflexivity.
  - destruct (Reqb (INR c) (INR c')) eqn:E; [|reflexivity]. apply Reqb_true in E. apply INR_eq in E. congruence.
Qed.
Lemma hits_sum n y out : INR (hits n y out) = vsum (map (fun i => if Reqb (nth i out 0%R) (y i) then 1 else 0)%R (seq 0 n)).
Proof. symmetry. apply vsum_indicator. Qed.
Lemma INR_list_sum {A} (f : A -> nat) l : INR (list_sum (map f l)) = vsum (map (fun x => INR (f x)) l).
Proof. induction l as [|x l IH]; cbn [map]; [reflexivity|]. rewrite vsum_cons, <- IH, <- plus_INR. reflexivity. Qed.
Lemma majority_hits {D S} (go1 go2 : D -> nat -> bool) k prior w n (y : nat -> R) (t : tree D S (list R)) :
  (forall d i, go2 d i = negb (go1 d i)) -> length prior = k -> (forall c, c < k -> nth c prior 0%R = w) ->
  (forall i, i < n -> clf_yok k (y i)) -> 0 < n ->
  nodes_ok go1 go2 (fun rows u => rows <> [] /\ i_post (info u) = add_counts 1 prior (map y rows)) (seq 0 n) t ->
  hits n y (predict_rows go1 go2 (fun i => INR (clf_predict_leaf (i_post i))) t n 0%R) =
  list_sum (map (fun g => largest_class k (map y g)) (groups go1 go2 (seq 0 n) t)).
Proof.
  intros Hc Hl Hw Hy Hn0 Hn. assert (Hk : 0 < k) by (destruct (Hy 0 Hn0) as (c & Hc' & _); lia).
  apply INR_eq. rewrite hits_sum, INR_list_sum, predict_rows_spec.
  rewrite <- (groups_sum go1 go2 Hc (fun i => INR (clf_predict_leaf (i_post i))) 0%R (fun v i => if Reqb v (y i) then 1 else 0)%R
     (fun g => INR (largest_class k (map y g))) (fun i => i < n) _ t) with (3 := Hn).
  - apply vsum_ext. intros i Hi. apply in_seq in Hi. rewrite nth_map_seq' by lia. reflexivity.
  - intros g i [_ Hp] Hg. cbn [info] in Hp. destruct (majority_leaf k prior w (map y g) Hl Hk Hw) as [_ E]. rewrite Hp, E.
    eapply hits_leaf. intros j Hj. apply Hy, Hg, Hj.
  - intros j Hj. apply in_seq in Hj. lia.
Qed.
(** More leaves, more hits. *)
Lemma count_groups {D S P} (go1 go2 : D -> nat -> bool) (y : nat -> R) c (t : tree D S P) : (forall d i, go2 d i = negb (go1 d i)) ->
  forall rows, count_label c (map y rows) = list_sum (map (fun g => count_label c (map y g)) (groups go1 go2 rows t)).
Proof.
  intros Hc rows. apply INR_eq. rewrite INR_list_sum.
  assert (E : forall l, INR (count_label c (map y l)) = vsum (map (fun i => if Nat.eqb (label (y i)) c then 1 else 0)%R l)).
  { intros l. rewrite vsum_indicator. unfold count_label. rewrite filter_map_comm, map_length. reflexivity. }
  rewrite E, (vsum_ext _ (fun g => vsum (map (fun i => if Nat.eqb (label (y i)) c then 1 else 0)%R g))) by (intros; apply E).
  symmetry. apply groups_total. exact Hc.
Qed.
Lemma list_sum_le {A} (f g : A -> nat) l : (forall x, f x <= g x) -> list_sum (map f l) <= list_sum (map g l).
Proof. intros H. induction l as [|x l IH]; cbn [map]; [auto|]. unfold list_sum in *. simpl. specialize (H x). lia. Qed.
Lemma largest_groups {D S P} (go1 go2 : D -> nat -> bool) (y : nat -> R) k (t : tree D S P) : (forall d i, go2 d i = negb (go1 d i)) ->
  forall rows, largest_class k (map y rows) <= list_sum (map (fun g => largest_class k (map y g)) (groups go1 go2 rows t)).
Proof.
  intros Hc rows. unfold largest_class at 1. apply list_max_le. rewrite Forall_forall. intros x Hx. apply in_map_iff in Hx as (c & <- & Hj).
  apply in_seq in Hj. rewrite (count_groups go1 go2 y c t Hc). apply list_sum_le. intros g. apply largest_ge. lia.
Qed.
Lemma coarser_groups {D S P} (go1 go2 : D -> nat -> bool) (y : nat -> R) k (t' t : tree D S P) : (forall d i, go2 d i = negb (go1 d i)) ->
  coarser t' t -> forall rows, list_sum (map (fun g => largest_class k (map y g)) (groups go1 go2 rows t')) <=
    list_sum (map (fun g => largest_class k (map y g)) (groups go1 go2 rows t)).
Proof.
  intros Hc. induction 1 as [i|i d a b c1 c2|i d a b a' b' c1 c2 c1' c2' H1 IH1 H2 IH2]; intros rows.
  - auto.
  - etransitivity; [|apply largest_groups; exact Hc]. cbn [groups map]. unfold list_sum. simpl. lia.
  - cbn [groups]. rewrite !map_app, !list_sum_app. specialize (IH1 (filter (go1 d) rows)). specialize (IH2 (filter (go2 d) rows)). lia.
Qed.

(** ** Regression: shrunk means *)
Lemma shrunk_leaf prior ys : (0 < ng_kappa prior)%R -> ys <> [] ->
  vsum (map (fun y => (reg_predict_leaf (ng_update 1 prior ys) - y) ^ 2)%R ys) = shrunk_error prior ys /\
  (shrunk_error prior ys <= vsum (map (fun y => (ng_mu prior - y) ^ 2)%R ys))%R.
Proof.
  intros Hk Hne. assert (Hn : (0 < INR (length ys))%R) by (apply lt_0_INR; destruct ys; [congruence|simpl; lia]).
  assert (E : forall m, vsum (map (fun y => (m - y) ^ 2)%R ys) = (ssd ys + INR (length ys) * (mean ys - m) ^ 2)%R).
  { intros m. unfold ssd.
    assert (E1 : forall l c, vsum (map (fun y => (m - y) ^ 2)%R l) =
        (vsum (map (fun y => (y - c) ^ 2) l) + 2 * (c - m) * (vsum l - INR (length l) * c) + INR (length l) * (c - m) ^ 2)%R).
    { induction l as [|x l IH]; intros c; cbn [map length]; [rewrite !vsum_nil; simpl; lra|]. rewrite !vsum_cons, (IH c), S_INR. ring. }
    rewrite (E1 ys (mean ys)). unfold mean. field. lra. }
  rewrite !E. unfold shrunk_error, reg_predict_leaf, ng_update. cbn [ng_mu]. set (n := INR (length ys)) in *. set (m := mean ys).
  split.
  - f_equal. f_equal. field. lra.
  - apply Rplus_le_compat_l. apply Rmult_le_compat_l; [lra|].
    assert (0 <= ng_kappa prior / (ng_kappa prior + n) <= 1)%R as [A B].
    { split; [apply Rle_mult_inv_pos; lra|]. apply Rmult_le_reg_r with (ng_kappa prior + n)%R; [lra|]. unfold Rdiv. rewrite Rmult_assoc, Rinv_l by lra. lra. }
    set (q := (ng_kappa prior / (ng_kappa prior + n))%R) in *.
    replace ((q * (m - ng_mu prior)) ^ 2)%R with (q ^ 2 * (m - ng_mu prior) ^ 2)%R by ring.
    assert (q ^ 2 <= 1)%R by nra. pose proof (pow2_ge_0 (m - ng_mu prior)). nra.
Qed.
Lemma shrunk_total {D S} (go1 go2 : D -> nat -> bool) prior n (y : nat -> R) (t : tree D S ng) :
  (forall d i, go2 d i = negb (go1 d i)) -> (0 < ng_kappa prior)%R ->
  nodes_ok go1 go2 (fun rows u => rows <> [] /\ i_post (info u) = ng_update 1 prior (map y rows)) (seq 0 n) t ->
  let e := sq_error n y (predict_rows go1 go2 (fun i => reg_predict_leaf (i_post i)) t n 0%R) in
  e = vsum (map (fun g => shrunk_error prior (map y g)) (groups go1 go2 (seq 0 n) t)) /\
  (e <= vsum (map (fun i => (ng_mu prior - y i) ^ 2) (seq 0 n)))%R.
Proof.
  intros Hc Hk Hn. cbv zeta.
  assert (E : sq_error n y (predict_rows go1 go2 (fun i => reg_predict_leaf (i_post i)) t n 0%R) =
     vsum (map (fun g => shrunk_error prior (map y g)) (groups go1 go2 (seq 0 n) t))).
  { unfold sq_error. rewrite predict_rows_spec.
    rewrite <- (groups_sum go1 go2 Hc (fun i => reg_predict_leaf (i_post i)) 0%R (fun v i => (v - y i) ^ 2)%R
       (fun g => shrunk_error prior (map y g)) (fun i => True) _ t) with (3 := Hn); auto.
    - apply vsum_ext. intros i Hi. apply in_seq in Hi. rewrite nth_map_seq' by lia. reflexivity.
    - intros g i [Hg Hp] _. cbn [info] in Hp. rewrite Hp.
      destruct (shrunk_leaf prior (map y g) Hk) as [E _]; [destruct g; simpl; congruence|].
      rewrite <- E, map_map. reflexivity. }
  split; [exact E|]. rewrite E, <- (groups_total go1 go2 Hc _ t). apply vsum_le. intros g Hg.
  assert (Hne : g <> []) by (refine (groups_ne go1 go2 _ t _ _ Hn g Hg); intros g0 u0 [Hg0 _]; exact Hg0).
  destruct (shrunk_leaf prior (map y g) Hk) as [_ B]; [destruct g; simpl; congruence|]. rewrite map_map in B. exact B.
Qed.

(** ** The four estimators *)
Lemma goes_compl X s i : goes_right X s i = negb (goes_left X s i). Proof. apply goes_excl'. Qed.
Lemma clf_hits srt k prior w h d t : clf_setting srt k prior h d -> h_delta h = 0%R -> (forall c, c < k -> nth c prior 0%R = w) ->
  clf_fit srt h d = Ok t ->
  hits (ts_n d) (ts_y d) (clf_predict t (ts_X d) (ts_n d)) = list_sum (map (largest_class k) (leaf_targets d t)) /\
  forall c, c < k -> count_label c (targets d (all_rows d)) <= hits (ts_n d) (ts_y d) (clf_predict t (ts_X d) (ts_n d)).
Proof.
  intros Hs Hd Hw E. pose proof Hs as (_ & _ & (Hn0 & _) & _ & Hl & _ & Hy).
  assert (Hh : hits (ts_n d) (ts_y d) (clf_predict t (ts_X d) (ts_n d)) = list_sum (map (largest_class k) (leaf_targets d t))).
  { unfold leaf_targets. rewrite map_map. eapply majority_hits; eauto using goes_compl.
    eapply nodes_ok_impl; [|eapply clf_nodes0; eauto]. cbv beta. tauto. }
  split; [exact Hh|]. intros c Hc. rewrite Hh. etransitivity; [apply largest_ge; exact Hc|].
  unfold leaf_targets. rewrite map_map. apply largest_groups. apply goes_compl.
Qed.
Lemma reg_error srt prior h d t : reg_setting srt prior h d -> h_delta h = 0%R -> reg_fit srt h d = Ok t ->
  let e := sq_error (ts_n d) (ts_y d) (reg_predict t (ts_X d) (ts_n d)) in
  e = vsum (map (shrunk_error prior) (leaf_targets d t)) /\
  (e <= vsum (map (fun y => (ng_mu prior - y) ^ 2) (targets d (all_rows d))))%R.
Proof.
  intros Hs Hd E. pose proof Hs as (_ & _ & _ & _ & Hk & _). unfold leaf_targets, targets at 2. rewrite !map_map.
  eapply shrunk_total; eauto using goes_compl. eapply nodes_ok_impl; [|eapply reg_nodes0; eauto]. cbv beta. tauto.
Qed.
Lemma hclf_hits {C} (pre : C -> list R) srt cands k prior w h d t : hclf_setting srt k prior h d -> (forall c, c < k -> nth c prior 0%R = w) ->
  hclf_fit pre srt cands h d = Ok t ->
  hits (hs_n d) (hs_y d) (hclf_predict t (hs_X d) (hs_n d)) = list_sum (map (largest_class k) (hleaf_targets d t)) /\
  forall c, c < k -> count_label c (htargets d (hrows d)) <= hits (hs_n d) (hs_y d) (hclf_predict t (hs_X d) (hs_n d)).
Proof.
  intros Hs Hw E. pose proof Hs as (_ & _ & _ & (Hn0 & _) & _ & Hl & _ & Hy).
  assert (Hh : hits (hs_n d) (hs_y d) (hclf_predict t (hs_X d) (hs_n d)) = list_sum (map (largest_class k) (hleaf_targets d t))).
  { unfold hleaf_targets. rewrite map_map. eapply majority_hits; eauto using before_behind.
    eapply nodes_ok_impl; [|eapply hclf_nodes; eauto]. cbv beta. tauto. }
  split; [exact Hh|]. intros c Hc. rewrite Hh. etransitivity; [apply largest_ge; exact Hc|].
  unfold hleaf_targets. rewrite map_map. apply largest_groups. apply before_behind.
Qed.
Lemma hreg_error {C} (pre : C -> list R) srt cands prior h d t : hreg_setting srt prior h d -> hreg_fit pre srt cands h d = Ok t ->
  let e := sq_error (hs_n d) (hs_y d) (hreg_predict t (hs_X d) (hs_n d)) in
  e = vsum (map (shrunk_error prior) (hleaf_targets d t)) /\
  (e <= vsum (map (fun y => (ng_mu prior - y) ^ 2) (htargets d (hrows d))))%R.
Proof.
  intros Hs E. pose proof Hs as (_ & _ & _ & _ & _ & Hk & _). unfold hleaf_targets, htargets at 2. rewrite !map_map.
  eapply shrunk_total; eauto using before_behind. eapply nodes_ok_impl; [|eapply hreg_nodes; eauto]. cbv beta. tauto.
Qed.
(** A larger partition prior never lowers the training accuracy. *)
Lemma clf_hits_mono srt k prior w h d pp' t t' : clf_setting srt k prior h d -> h_delta h = 0%R -> (forall c, c < k -> nth c prior 0%R = w) ->
  (0 < pp' <= h_pp h)%R -> clf_fit srt h d = Ok t ->
  clf_fit srt (mkHyper pp' (h_prior h) (h_delta h) (h_prune h) (h_prec h)) d = Ok t' ->
  hits (ts_n d) (ts_y d) (clf_predict t' (ts_X d) (ts_n d)) <= hits (ts_n d) (ts_y d) (clf_predict t (ts_X d) (ts_n d)).
Proof.
  intros Hs Hd Hw Hpp E E'. pose proof Hs as (A1 & (A2 & A3 & A4) & A5).
  assert (Hs' : clf_setting srt k prior (mkHyper pp' (h_prior h) (h_delta h) (h_prune h) (h_prec h)) d).
  { split; [exact A1|]. split; [|exact A5]. split; [|split]; simpl; auto. lra. }
  destruct (clf_hits _ _ _ _ _ _ _ Hs Hd Hw E) as [-> _]. destruct (clf_hits _ _ _ _ _ _ _ Hs' Hd Hw E') as [-> _].
  unfold leaf_targets. rewrite !map_map. apply coarser_groups; [apply goes_compl|].
  eapply (clf_coarser (h_pp h) pp'); [lra|lra|lra|exact Hs|reflexivity|reflexivity|exact E|exact E'].
Qed.

(** ** Total gain *)
Lemma odds_gain {P} pp prec (ev : list R -> R) (evp : P -> list R -> R) dflt prior (d : tset R R) (t : tree (pdesc string R) R P) :
  evp prior = ev ->
  forall rows, nodes_ok (goes_left (ts_X d)) (goes_right (ts_X d))
     (fun r u => node_prior dflt (info u) = prior /\ best_split_node pp prec evp dflt d r u) rows t ->
  exists x, log_odds pp prec d rows t x /\
    total_gain t = (x + vsum (map (fun g => ev (targets d g)) (groups (goes_left (ts_X d)) (goes_right (ts_X d)) rows t)) - ev (targets d rows))%R.
Proof.
  intros Hev. induction t as [i|i s a b c1 IH1 c2 IH2]; intros rows Hn.
  - exists 0%R. split; [reflexivity|]. unfold total_gain. cbn [splits groups map]. rewrite vsum_cons, !vsum_nil. lra.
  - destruct Hn as ((Hp & Hb) & N1 & N2). destruct (IH1 _ N1) as (x1 & O1 & G1). destruct (IH2 _ N2) as (x2 & O2 & G2).
    cbn [best_split_node info] in Hb, Hp. rewrite Hp, Hev in Hb. destruct Hb as (Hno & a0 & b0 & Hv & (Hf & Hadm & m & Hm & Hbest) & _).
    assert (Hm0 : 0 < m).
    { destruct Hm as (cs & _ & <- & Hcs). apply Hcs in Hadm. destruct cs; [destruct Hadm|simpl; lia]. }
    exists (ln (pp ^ (1 + i_level i) / (INR m * INR (ts_dim d))) - ln (1 - pp ^ (1 + i_level i)) + x1 + x2)%R.
    split; [exists m, x1, x2; auto|].
    unfold total_gain in *. cbn [splits map groups]. rewrite vsum_cons, !map_app, !vsum_app', G1, G2. unfold gain.
    assert (F1 : filter (goes_left (ts_X d) s) rows = filter (fun i => Rleb (ts_X d i (sd_dim s)) a0) rows).
    { apply filter_ext_in. intros j Hj. destruct Hadm as (_ & _ & Hab & _ & Hsep). unfold goes_left. rewrite Hv. destruct (Hsep j Hj) as [Hs|Hs].
      - rewrite (proj2 (Rleb_true _ _) Hs). apply Rltb_true. lra.
      - rewrite (proj2 (Rleb_false _ _)) by lra. apply Rltb_false. lra. }
    assert (F2 : filter (goes_right (ts_X d) s) rows = filter (fun i => Rltb a0 (ts_X d i (sd_dim s))) rows).
    { apply filter_ext_in. intros j Hj. destruct Hadm as (_ & _ & Hab & _ & Hsep). unfold goes_right. rewrite Hv. destruct (Hsep j Hj) as [Hs|Hs].
      - rewrite (proj2 (Rltb_false _ _)) by lra. apply Rgeb_false. lra.
      - rewrite (proj2 (Rltb_true _ _)) by lra. apply Rgeb_true. lra. }
    rewrite Hno, Hbest. unfold stop_value. rewrite <- F1, <- F2. lra.
Qed.
Lemma node_data_prior {S P} post str (d : tset R R) dflt (q : P) : (forall ys, str q ys = q) ->
  forall (t : tree (pdesc string R) S P) attr rows, match attr with Some p => p | None => dflt (length rows) end = q -> node_data post str d attr q rows t ->
  nodes_ok (goes_left (ts_X d)) (goes_right (ts_X d)) (fun r u => node_prior dflt (info u) = q) rows t.
Proof.
  intros Hstr. induction t as [i|i s a b c1 IH1 c2 IH2]; intros attr rows Ha H.
  - destruct H as (E1 & E2 & E3 & E4 & _). split; [|exact I]. unfold node_prior. rewrite E1, E3. exact Ha.
  - cbn [node_data] in H. cbv zeta in H. destruct H as (E1 & E2 & E3 & E4 & H1 & H2).
    rewrite Hstr in H1, H2. cbn [nodes_ok]. split; [unfold node_prior; rewrite E1, E3; exact Ha|].
    split; [apply (IH1 (Some q))|apply (IH2 (Some q))].
    + reflexivity.
    + destruct (i_n_dim (info c1)); exact H1.
    + reflexivity.
    + destruct (i_n_dim (info c2)); exact H2.
Qed.
Lemma clf_total_gain srt k prior h d t : clf_setting srt k prior h d -> h_delta h = 0%R -> clf_fit srt h d = Ok t ->
  exists x, log_odds (h_pp h) (h_prec h) d (all_rows d) t x /\
    total_gain t = (x + vsum (map (clf_ev prior) (leaf_targets d t)) - clf_ev prior (targets d (all_rows d)))%R.
Proof.
  intros Hs Hd E. unfold leaf_targets. rewrite map_map. eapply odds_gain; [reflexivity|]. apply nodes_ok_and.
  - eapply (node_data_prior _ (add_counts (h_delta h)) d (clf_dflt (ts_dim d))); [| |eapply clf_node_data; eauto]; [|reflexivity].
    intros ys. rewrite Hd. apply add_counts_0.
  - eapply clf_best_splits; eauto.
Qed.
Lemma reg_total_gain srt prior h d t : reg_setting srt prior h d -> h_delta h = 0%R -> reg_fit srt h d = Ok t ->
  exists x, log_odds (h_pp h) (h_prec h) d (all_rows d) t x /\
    total_gain t = (x + vsum (map (ng_logev prior) (leaf_targets d t)) - ng_logev prior (targets d (all_rows d)))%R.
Proof.
  intros Hs Hd E. unfold leaf_targets. rewrite map_map. pose proof Hs as (_ & _ & _ & Hp & Hk). eapply odds_gain; [reflexivity|]. apply nodes_ok_and.
  - eapply (node_data_prior _ (ng_update (h_delta h)) d default_ng); [| |eapply reg_node_data; eauto].
    + intros ys. rewrite Hd. apply ng_update_0. exact Hk.
    + unfold all_rows. rewrite seq_length. symmetry. exact Hp.
  - eapply reg_best_splits; eauto.
Qed.
