(** * FloatClfFit: the nodes of a float64 classification tree (C82). *)
From Coq Require Import Reals Lra Permutation Psatz String.
From Flocq Require Import Core BinarySingleNaN.
From Verif Require Import Prelude Lists Tree Perp RealOps Api Spec ApiSpec NodeFacts OptProofs Routing HyperExec FloatFeat NumApi NumWitness FloatReg FloatClf FloatSum FloatNG FloatClfSum FloatClfProofs FitPrior.
Local Open Scope R_scope.

(** Exact posterior count of class [c] for the rows [rows]. *)
Definition exact_count (lab : nat -> nat) (prior : list float64) (rows : list nat) (c : nat) : R :=
  B2R (nth c prior f_zero) + INR (label_count lab c rows).
Definition exact_total_count (prior : list float64) (rows : list nat) : R := vsum (map B2R prior) + INR (length rows).

(** What the float64 code computes at a node with the rows [rows]: [k] finite probabilities in [[0,1]], each within
    [(k+3) 2^-52] of the exact posterior mean; the predicted class has the largest computed probability, and the largest
    exact posterior up to a factor [1 + 2^-51]. *)
Definition node_probabilities {D S'} (fsum : list float64 -> float64) (lab : nat -> nat) (k : nat) (prior : list float64)
    (rows : list nat) (t : tree D S' (list float64)) : Prop :=
  let p := cl64_mean fsum (i_post (info t)) in
  let c0 := cl64_predict_leaf (i_post (info t)) in
  length p = k /\ (c0 < k)%nat /\
  forall c, (c < k)%nat ->
    is_finite (nth c p f_zero) = true /\ 0 <= B2R (nth c p f_zero) <= 1 /\
    Rabs (B2R (nth c p f_zero) - exact_count lab prior rows c / exact_total_count prior rows) <= (INR k + 3) * b2 (-52) /\
    B2R (nth c p f_zero) <= B2R (nth c0 p f_zero) /\
    exact_count lab prior rows c <= exact_count lab prior rows c0 * (1 + b2 (-51)).
(** The predicted class is the first class of maximal frequency among the rows. *)
Definition node_majority {D S'} (lab : nat -> nat) (k : nat) (rows : list nat) (t : tree D S' (list float64)) : Prop :=
  let c0 := cl64_predict_leaf (i_post (info t)) in
  (c0 < k)%nat /\ forall c, (c < k)%nat ->
    (label_count lab c rows <= label_count lab c0 rows)%nat /\ (label_count lab c rows = label_count lab c0 rows -> (c0 <= c)%nat).

Lemma label_count_perm lab c l l' : Permutation l l' -> label_count lab c l = label_count lab c l'.
Proof.
  intros H. unfold label_count. induction H as [|x l l' _ IH|x y l|l l' l'' _ IH1 _ IH2]; simpl; auto; try congruence.
  - destruct (Nat.eqb (lab x) c); simpl; congruence.
  - destruct (Nat.eqb (lab x) c), (Nat.eqb (lab y) c); simpl; auto.
Qed.

Section Node.
Variables (lab : nat -> nat) (k : nat) (y : nat -> float64) (prior : list float64).
Hypothesis Hk : (0 < k)%nat /\ (Z.of_nat k <= 2 ^ 20)%Z.
Hypothesis Hlen : length prior = k.
Hypothesis Hprior : Forall (fun a => nonneg_fin a /\ B2R a <= b2 900) prior.
Variable n : nat.
Hypothesis Hn : (Z.of_nat n < 2 ^ 53)%Z.
Hypothesis Hy : forall i, (i < n)%nat -> y i = f_nat (lab i) /\ (lab i < k)%nat.
Variable fsum : list float64 -> float64.
Hypothesis Hsum : forall l, sum_of l (fsum l).

Lemma rows_bound r : NoDup r -> (forall i, In i r -> (i < n)%nat) -> (length r <= n)%nat.
Proof. intros H1 H2. rewrite <- (seq_length n 0). apply NoDup_incl_length; auto. intros i Hi. apply in_seq. specialize (H2 i Hi). lia. Qed.

Lemma node_prob {D S'} rows r (t : tree D S' (list float64)) : Permutation r rows -> rows <> [] -> NoDup rows -> (forall i, In i rows -> (i < n)%nat) ->
  i_post (info t) = cl64_posterior1 prior (map y r) -> node_probabilities fsum lab k prior rows t.
Proof.
  intros Hp Hne Hnd Hr E. unfold node_probabilities. rewrite E.
  assert (Hl : length r = length rows) by (apply Permutation_length; auto). pose proof (rows_bound rows Hnd Hr) as Hb.
  assert (Hr' : forall i, In i r -> y i = f_nat (lab i) /\ (lab i < k)%nat) by (intros i Hi; apply Hy, Hr; eapply Permutation_in; eauto).
  assert (Hrl : (0 < length r)%nat /\ (Z.of_nat (length r) < 2 ^ 53)%Z) by (destruct rows; [congruence|]; simpl in *; lia).
  assert (Hk53 : (Z.of_nat k < 2 ^ 53)%Z) by (assert (2 ^ 20 < 2 ^ 53)%Z by lia; lia).
  split; [eapply mean_length; eauto|]. split; [eapply predicted_max; eauto|]. intros c Hc.
  assert (Et : exact_total_count prior rows = vsum (vals prior) + INR (length r)) by (unfold exact_total_count, vals; rewrite Hl; reflexivity).
  assert (Ec : forall j, exact_count lab prior rows j = B2R (nth j prior f_zero) + INR (label_count lab j r)) by (intros j; unfold exact_count; rewrite (label_count_perm lab j r rows Hp); reflexivity).
  rewrite Et, !Ec. split; [eapply mean_val; eauto|]. split; [eapply mean_range; eauto|]. split; [eapply mean_err; eauto|].
  eapply predicted_near; eauto.
Qed.
Lemma node_maj {D S'} w rows r (t : tree D S' (list float64)) : prior = repeat w k -> B2R w <= b2 50 -> (Z.of_nat n <= 2 ^ 50)%Z ->
  Permutation r rows -> rows <> [] -> NoDup rows -> (forall i, In i rows -> (i < n)%nat) ->
  i_post (info t) = cl64_posterior1 prior (map y r) -> node_majority lab k rows t.
Proof.
  intros Ew Hw Hn50 Hp Hne Hnd Hr E. unfold node_majority. rewrite E.
  assert (Hl : length r = length rows) by (apply Permutation_length; auto). pose proof (rows_bound rows Hnd Hr) as Hb.
  assert (Hr' : forall i, In i r -> y i = f_nat (lab i) /\ (lab i < k)%nat) by (intros i Hi; apply Hy, Hr; eapply Permutation_in; eauto).
  assert (Hrl : (0 < length r)%nat /\ (Z.of_nat (length r) < 2 ^ 53)%Z) by (destruct rows; [congruence|]; simpl in *; lia).
  assert (Hk53 : (Z.of_nat k < 2 ^ 53)%Z) by (assert (2 ^ 20 < 2 ^ 53)%Z by lia; lia).
  assert (H : (cl64_predict_leaf (cl64_posterior1 prior (map y r)) < k)%nat /\ forall j, (j < k)%nat ->
    (label_count lab j r <= label_count lab (cl64_predict_leaf (cl64_posterior1 prior (map y r))) r)%nat /\
    (label_count lab j r = label_count lab (cl64_predict_leaf (cl64_posterior1 prior (map y r))) r -> (cl64_predict_leaf (cl64_posterior1 prior (map y r)) <= j)%nat)).
  { eapply predicted_majority; eauto. lia. }
  destruct H as [H1 H2]. split; [exact H1|]. intros c Hc. rewrite <- !(label_count_perm lab _ r rows Hp). apply H2, Hc.
Qed.
End Node.

Lemma counts_perm k l l' : Permutation l l' -> cl64_counts k l = cl64_counts k l'.
Proof.
  intros H. unfold cl64_counts. apply map_ext. intros c. induction H as [|x l l' _ IH|x y l|l l' l'' _ IH1 _ IH2]; simpl; auto; try congruence.
  - destruct (cl64_is x c); simpl; congruence.
  - destruct (cl64_is x c), (cl64_is y c); simpl; auto.
Qed.
Lemma all_nodes_imp {D S' P} (Pr Qr : tree D S' P -> Prop) t : (forall u, Pr u -> Qr u) -> all_nodes Pr t -> all_nodes Qr t.
Proof. intros H. induction t as [i|i d a b c1 IH1 c2 IH2]; cbn [all_nodes]; intuition auto. Qed.
(** Rows that reach a node. *)
Lemma nodes_ok_sub {D S' P} (left right : D -> nat -> bool) (Pr Qr : list nat -> tree D S' P -> Prop) :
  forall t rows, NoDup rows -> (forall r u, NoDup r -> incl r rows -> Pr r u -> Qr r u) -> nodes_ok left right Pr rows t -> nodes_ok left right Qr rows t.
Proof.
  induction t as [i|i d a b c1 IH1 c2 IH2]; intros rows Hn H Ht; cbn [nodes_ok] in *.
  - destruct Ht as [Ht _]. split; auto. apply H; auto. apply incl_refl.
  - destruct Ht as (Ht & H1 & H2). split; [apply H; auto; apply incl_refl|]. split.
    + apply IH1; auto; [apply NoDup_filter; auto|]. intros r u Hr Hi. apply H; auto. intros x Hx. apply Hi, filter_In in Hx. tauto.
    + apply IH2; auto; [apply NoDup_filter; auto|]. intros r u Hr Hi. apply H; auto. intros x Hx. apply Hi, filter_In in Hx. tauto.
Qed.

Section Fit.
Variables (fsum : list float64 -> float64) (flog fgammaln : float64 -> float64) (fbetaln : float64 -> float64 -> float64) (fpow : float64 -> nat -> float64).
Variables (pp delta : float64).
Variable same : ninfo (list float64) -> ninfo (list float64) -> bool.
Let L := cl64_lik fsum flog fgammaln fbetaln fpow pp delta.

Section Any.
Variables (A V : Type) (F : feat A V) (d : tset A float64) (lab : nat -> nat) (k : nat) (prior : list float64) (pa : option (list float64)).
Hypothesis Hsum : forall l, sum_of l (fsum l).
Hypothesis Hdelta : Beqb delta f_zero = true.
Hypothesis Hk : (0 < k)%nat /\ (Z.of_nat k <= 2 ^ 20)%Z.
Hypothesis Hpa : cl64_get_prior pa (ts_n d) (ts_dim d) = prior.
Hypothesis Hlen : length prior = k.
Hypothesis Hprior : Forall (fun a => nonneg_fin a /\ B2R a <= b2 900) prior.
Hypothesis Hn : (Z.of_nat (ts_n d) < 2 ^ 53)%Z.
Hypothesis Hy : forall i, (i < ts_n d)%nat -> ts_y d i = f_nat (lab i) /\ (lab i < k)%nat.
Hypothesis Hd : tset_ok d.

Lemma hchild ys : l_child_prior L prior ys = prior.
Proof. unfold L. cbn [l_child_prior cl64_lik]. rewrite Hdelta. reflexivity. Qed.

Theorem cl64_any do_prune lvl t : permutes (f_argsort F) -> perp_fit F L same do_prune lvl pa d = Ok t ->
  all_nodes (fun u => exists rows, NoDup rows /\ rows <> [] /\ (forall i, In i rows -> (i < ts_n d)%nat) /\
    i_n_data (info u) = length rows /\ node_probabilities fsum lab k prior rows u) t.
Proof.
  intros Hperm E. pose proof (fit_posteriors F L prior (fun _ _ => eq_refl) hchild same do_prune lvl pa d t Hperm Hd Hpa E) as H.
  eapply all_nodes_imp; [|exact H]. intros u (r & H1 & H2 & H3 & H4 & H5). exists r. repeat (split; [assumption|]).
  eapply node_prob with (n := ts_n d); eauto.
Qed.
Lemma routed leb do_prune lvl t : (forall a, leb a a = true) -> sorts leb (f_argsort F) -> threshold_ok F leb (ts_X d) (ts_n d) (ts_dim d) ->
  perp_fit F L same do_prune lvl pa d = Ok t ->
  nodes_ok (pgo1 F (ts_X d)) (pgo2 F (ts_X d)) (fun rows u => i_n_data (info u) = length rows /\ node_probabilities fsum lab k prior rows u) (seq 0 (ts_n d)) t.
Proof.
  intros Hrefl Hs Ht E. pose proof (fit_routed_prior F L prior (fun _ _ => eq_refl) hchild same leb do_prune lvl pa d t Hrefl Hs Hd Ht Hpa E) as H.
  eapply nodes_ok_sub; [apply seq_NoDup| |exact H]. intros rows u Hnd Hi (H1 & H2 & r & H3 & H4).
  assert (Hb : forall i, In i rows -> (i < ts_n d)%nat) by (intros i Hin; apply Hi, in_seq in Hin; lia).
  split; [exact H2|]. eapply node_prob with (n := ts_n d); eauto.
Qed.
End Any.

Theorem routed_majority A V (F : feat A V) (d : tset A float64) lab k w pa leb do_prune lvl t : Beqb delta f_zero = true ->
  (0 < k)%nat /\ (Z.of_nat k <= 2 ^ 20)%Z -> cl64_get_prior pa (ts_n d) (ts_dim d) = repeat w k -> is_finite w = true -> 0 <= B2R w <= b2 50 ->
  (Z.of_nat (ts_n d) <= 2 ^ 50)%Z -> (forall i, (i < ts_n d)%nat -> ts_y d i = f_nat (lab i) /\ (lab i < k)%nat) -> tset_ok d ->
  (forall a, leb a a = true) -> sorts leb (f_argsort F) -> threshold_ok F leb (ts_X d) (ts_n d) (ts_dim d) ->
  perp_fit F L same do_prune lvl pa d = Ok t ->
  nodes_ok (pgo1 F (ts_X d)) (pgo2 F (ts_X d)) (node_majority lab k) (seq 0 (ts_n d)) t.
Proof.
  intros Hdelta Hk Hpa Fw Hw Hn Hy Hd Hrefl Hs Ht E.
  pose proof (fit_routed_prior F L (repeat w k) (fun _ _ => eq_refl) (hchild _ Hdelta) same leb do_prune lvl pa d t Hrefl Hs Hd Ht Hpa E) as H.
  eapply nodes_ok_sub; [apply seq_NoDup| |exact H]. intros rows u Hnd Hi (H1 & H2 & r & H3 & H4).
  assert (Hb : forall i, In i rows -> (i < ts_n d)%nat) by (intros i Hin; apply Hi, in_seq in Hin; lia).
  assert (Hpr : Forall (fun a => nonneg_fin a /\ B2R a <= b2 900) (repeat w k)).
  { apply Forall_forall. intros a Ha. apply repeat_spec in Ha. subst a. split; [split; [exact Fw|lra]|]. pose proof (b2_le 50 900 ltac:(lia)). lra. }
  assert (Hn53 : (Z.of_nat (ts_n d) < 2 ^ 53)%Z) by (assert (2 ^ 50 < 2 ^ 53)%Z by reflexivity; lia).
  eapply node_maj with (n := ts_n d) (prior := repeat w k); eauto; try lra. apply repeat_length.
Qed.
End Fit.

(** ** Predicted class and largest printed probability *)
(** 2.9 and its successor, 2.4. *)
Definition tie_prior : list float64 := [f_div (f_nat 29) (f_nat 10); Bsucc (f_div (f_nat 29) (f_nat 10)); f_div (f_nat 24) (f_nat 10)].
(** Three rows with the same feature, one of each class. *)
Definition tie_set : tset float64 float64 := {| ts_X := fun _ _ => f_zero; ts_y := f_nat; ts_n := 3; ts_dim := 1; ts_names := ["x"%string] |}.
Definition tie_post : list float64 := cl64_posterior1 tie_prior [f_nat 0; f_nat 1; f_nat 2].
Lemma tie_classes : cl64_predict_leaf tie_post = 1%nat /\ f_argmax (cl64_mean f_sum tie_post) = 0%nat /\
  Bltb (nth 0 tie_post f_zero) (nth 1 tie_post f_zero) = true /\ Beqb (nth 0 (cl64_mean f_sum tie_post) f_zero) (nth 1 (cl64_mean f_sum tie_post) f_zero) = true.
Proof. repeat split; vm_compute; reflexivity. Qed.
Lemma pfit_nocut {A V Y P S NM} (F : feat A V) (L : lik Y P S) X y (names : list NM) fuel lvl pa row :
  split_positions (f_gap F) (gather (fun i => X i 0%nat) row) = [] ->
  exists i, pfit F L X y names (Datatypes.S fuel) lvl pa [row] = Ok (Leaf i) /\ i_post i = l_post L (l_prior L pa (length row) 1) (gather y row).
Proof.
  intros H. cbn [pfit]. unfold scan. cbn [length seq combine fold_left scan_dim]. rewrite H. cbn [b_idx Z.ltb Z.compare].
  eexists. split; reflexivity.
Qed.
Lemma tie_leaf fsum flog fgammaln fbetaln fpow pp delta srt same prn : permutes srt ->
  exists i, perp_fit (feat_f f_zero srt) (cl64_lik fsum flog fgammaln fbetaln fpow pp delta) same prn 0 (Some tie_prior) tie_set = Ok (Leaf i) /\
  i_post i = tie_post.
Proof.
  intros Hp.
  set (row := map (store_index 3) (srt (fun _ => f_zero) 3%nat)).
  assert (Hr : Permutation row [0; 1; 2]%nat).
  { unfold row. eapply perm_trans; [apply Permutation_map, Hp|]. vm_compute. apply Permutation_refl. }
  assert (Hpost : cl64_posterior1 tie_prior (gather f_nat row) = tie_post).
  { unfold tie_post, cl64_posterior1. rewrite (counts_perm _ _ [f_nat 0; f_nat 1; f_nat 2] (Permutation_map f_nat Hr)). reflexivity. }
  pose proof (Permutation_length Hr) as Hl.
  destruct (pfit_nocut (feat_f f_zero srt) (cl64_lik fsum flog fgammaln fbetaln fpow pp delta) (fun _ _ => f_zero) f_nat ["x"%string] 3 0 (Some tie_prior) row) as (i & E & Ei).
  { clearbody row. destruct row as [|a [|b [|c [|e row]]]]; try discriminate Hl. vm_compute. reflexivity. }
  exists i. split; [|rewrite Ei; exact Hpost]. 
  unfold perp_fit. match goal with |- context [pfit_root ?F ?L ?X ?y ?nm ?l ?pa ?n ?dm] => assert (E' : pfit_root F L X y nm l pa n dm = Ok (Leaf i)) by exact E end.
  rewrite E'. destruct prn; reflexivity.
Qed.

(** The default prior has exact entries. *)
Lemma cl64_default n n_dim : (Z.of_nat n < 2 ^ 53)%Z -> map B2R (cl64_get_prior None n n_dim) = repeat (INR (Nat.max 1 (n / 100))) n_dim /\
  Forall (fun a => is_finite a = true) (cl64_get_prior None n n_dim).
Proof.
  intros Hn. unfold cl64_get_prior. assert (Hm : (Z.of_nat (Nat.max 1 (n / 100)) < 2 ^ 53)%Z).
  { assert (n / 100 <= n)%nat by (apply Nat.div_le_upper_bound; lia). lia. }
  destruct (int_nat (Nat.max 1 (n / 100)) Hm) as [F E]. rewrite <- INR_IZR_INZ in E.
  set (a := f_nat _) in *. split.
  - induction n_dim as [|k IH]; [reflexivity|]. cbn [repeat map]. rewrite E, IH. reflexivity.
  - apply Forall_forall. intros x Hx. apply repeat_spec in Hx. subst x. exact F.
Qed.
