(** * StableFit: classification trees fitted entirely in float64 (features, evidence, comparisons) against the exact values. *)
From Coq Require Import Reals Lra Permutation Sorted String.
From Flocq Require Import Core BinarySingleNaN.
From Verif Require Import Prelude Lists Tree Perp RealOps Clf Reg Api Spec PruneProofs PredictProofs FitProofs OptSpec OptProofs OptFit OptNodes
  ApiSpec ApiProofs ClfSpec ClfProofs SplitFacts NodeFacts Routing Sim FloatFeat FloatProofs NumApi FloatReg FloatSum FloatNG FloatClf FloatClfSum FloatClfProofs Stable FloatClfErr FloatSame.
Local Open Scope R_scope.

(** ** Nodes that are best up to an error *)
Section NodeSpec.
Context {V P : Type}.
Variable thr : list nat -> nat -> R -> R -> V -> Prop.    (* thr rows f a b v: [v] is the threshold between the values [a], [b] of feature [f] *)
Variables (pp prec : R) (e : list R -> R) (tau : R) (depth : nat) (d : tset R R).

(** A split node down to level [depth]: the stored scores are numbers within [tau] of the exact ones, the exact value of the
    chosen split is more than the value of stopping less [2 tau], and no split is better by more than [2 tau]. *)
Definition near_split_node (rows : list nat) (t : tree (pdesc string V) float64 P) : Prop :=
  match t with
  | Leaf _ => True
  | Split i s v_no v_best _ _ => (i_level i <= depth)%nat ->
      let st := stop_value pp e (i_level i) d rows in
      is_finite v_no = true /\ Rabs (B2R v_no - st) <= tau /\ is_finite v_best = true /\
      exists a b v, thr rows (sd_dim s) a b (sd_val s) /\ split_value pp prec e (i_level i) d rows (sd_dim s) a b v /\
        Rabs (B2R v_best - v) <= tau /\ st - 2 * tau < v /\
        forall f' a' b' v', split_value pp prec e (i_level i) d rows f' a' b' v' -> v' <= v + 2 * tau
  end.
(** A leaf: one row, equal targets, or no split better than stopping by more than [2 tau]. *)
Definition near_leaf_node (rows : list nat) (t : tree (pdesc string V) float64 P) : Prop :=
  match t with
  | Split _ _ _ _ _ _ => True
  | Leaf i => (i_level i <= depth)%nat ->
      length rows = 1%nat \/ (forall j j', In j rows -> In j' rows -> ts_y d j = ts_y d j') \/
      forall f a b v, split_value pp prec e (i_level i) d rows f a b v -> v <= stop_value pp e (i_level i) d rows + 2 * tau
  end.
End NodeSpec.

(** Exact threshold, and threshold computed in float64 from the matrix [X]. *)
Definition thr_R (rows : list nat) (f : nat) (a b v : R) : Prop := v = (a + b) / 2.
Definition thr_f (X : nat -> nat -> float64) (rows : list nat) (f : nat) (a b : R) (v : float64) : Prop :=
  exists r s, In r rows /\ In s rows /\ a = B2R (X r f) /\ b = B2R (X s f) /\ v = mid_f (X r f) (X s f).

Definition exact_set {A} (lab : nat -> nat) (d : tset A float64) (X : nat -> nat -> R) : tset R R :=
  mkSet (ts_n d) (ts_dim d) X (fun i => INR (lab i)) (ts_names d).

(** A node of the exact tree whose decision is clear: no alternative comes within [2 tau]. *)
Definition clear_node {P} (pp prec : R) (e : list R -> R) (tau : R) (depth : nat) (d : tset R R) (rows : list nat) (t : tree (pdesc string R) R P) : Prop :=
  match t with
  | Leaf i => (i_level i <= depth)%nat /\ (i_n_dim i = None \/
      forall f a b v, split_value pp prec e (i_level i) d rows f a b v -> v + 2 * tau <= stop_value pp e (i_level i) d rows)
  | Split i s v_no v_best _ _ => (i_level i <= depth)%nat /\ v_no + 2 * tau < v_best /\
      exists a b, sd_val s = (a + b) / 2 /\ split_value pp prec e (i_level i) d rows (sd_dim s) a b v_best /\
      forall f' a' b' v', split_value pp prec e (i_level i) d rows f' a' b' v' -> (f', a') <> (sd_dim s, a) -> v' + 2 * tau < v_best
  end.

(** The float64 copy of an exact tree: the same features, names, levels and sample counts; each threshold computed in float64
    from the same pair of values; every row of a node goes to the same child in both. *)
Inductive float_copy {S P S' P'} (X : nat -> nat -> float64) : list nat -> tree (pdesc string R) S P -> tree (pdesc string float64) S' P' -> Prop :=
| copy_leaf rows i i' : i_level i' = i_level i -> i_n_data i' = i_n_data i -> i_n_dim i' = i_n_dim i -> float_copy X rows (Leaf i) (Leaf i')
| copy_split rows i i' f nm v v' a b a' b' c1 c2 c1' c2' : i_level i' = i_level i -> i_n_data i' = i_n_data i -> i_n_dim i' = i_n_dim i ->
    (exists r s, In r rows /\ In s rows /\ v' = mid_f (X r f) (X s f) /\ v = (B2R (X r f) + B2R (X s f)) / 2) ->
    (forall r, In r rows -> Bltb (X r f) v' = Rltb (B2R (X r f)) v /\ Bleb v' (X r f) = Rgeb (B2R (X r f)) v) ->
    float_copy X (filter (fun r => Bltb (X r f) v') rows) c1 c1' -> float_copy X (filter (fun r => Bleb v' (X r f)) rows) c2 c2' ->
    float_copy X rows (Split i (mkDesc f nm v) a b c1 c2) (Split i' (mkDesc f nm v') a' b' c1' c2').

(** Without delta every node has the prior of the root. *)
Lemma const_prior (d : tset R R) prec pp q : forall lvl rows t,
  opt Rleb (gap_R prec) mid_R (clf_tgt pp 0) (ts_X d) (ts_y d) (ts_names d) (ts_dim d) lvl (Some q) rows t ->
  forall l r rows', nodes_ok l r (fun _ u => i_prior (info u) = Some q) rows' t.
Proof.
  assert (H : (forall lvl pa rows t, opt Rleb (gap_R prec) mid_R (clf_tgt pp 0) (ts_X d) (ts_y d) (ts_names d) (ts_dim d) lvl pa rows t ->
     pa = Some q -> forall l r rows', nodes_ok l r (fun _ u => i_prior (info u) = Some q) rows' t) /\
    (forall lvl p rows t, opt_child Rleb (gap_R prec) mid_R (clf_tgt pp 0) (ts_X d) (ts_y d) (ts_names d) (ts_dim d) lvl p rows t ->
     p = q -> forall l r rows', nodes_ok l r (fun _ u => i_prior (info u) = Some q) rows' t)).
  { apply opt_mutind.
    - intros lvl pa rows p Hp Hno -> l r rows'. split; [reflexivity|exact I].
    - intros lvl pa rows p f a b s nm c1 c2 Hp Hcd Hg Hmax Hnm H1 IH1 H2 IH2 -> l r rows'. cbn [nodes_ok]. split; [reflexivity|].
      cbn [t_prior clf_tgt] in Hp. split; auto.
    - intros lvl p rows t Hl Hm Ho IH -> l r rows'. apply IH. cbn [t_child_prior clf_tgt]. rewrite add_counts_0. reflexivity.
    - intros lvl p rows Hor -> l r rows'. split; [|exact I]. cbn. rewrite add_counts_0. reflexivity. }
  intros lvl rows t Ho l r rows'. apply (proj1 H _ _ _ _ Ho eq_refl).
Qed.

(** A float64 classification problem: no delta, positive prior for [k] classes, targets [lab], library functions with known errors
    on the arguments that occur. *)
Record clf64_setting {A} (fsum : list float64 -> float64) (flog fgammaln : float64 -> float64) (fbetaln : float64 -> float64 -> float64)
    (fpow : float64 -> nat -> float64) (pp delta : float64) (k depth : nat) (prior : list float64) (lab : nat -> nat) (el eb B : R) (d : tset A float64) : Prop := {
  cs_set : tset_ok d;
  cs_delta : Beqb delta f_zero = true;
  cs_k : (0 < k)%nat /\ (Z.of_nat k < 2 ^ 53)%Z;
  cs_len : length prior = k;
  cs_pos : Forall (fun a => 0 < B2R a) prior;
  cs_lab : forall i, (i < ts_n d)%nat -> ts_y d i = f_nat (lab i) /\ (lab i < k)%nat;
  cs_logs : logs_within flog fpow pp (ts_n d) (ts_dim d) depth el B;
  cs_beta : betaln_within fsum fgammaln fbetaln prior (ts_n d) eb B;
  cs_bound : B <= b2 900 }.

Section Fits.
Variable fsum : list float64 -> float64.
Variables (flog fgammaln : float64 -> float64) (fbetaln : float64 -> float64 -> float64) (fpow : float64 -> nat -> float64).
Variables (pp delta : float64).
Variables (k depth : nat) (prior : list float64) (lab : nat -> nat) (el eb B : R).
Notation L := (cl64_lik fsum flog fgammaln fbetaln fpow pp delta).
Notation tau := (clf_tau el eb B).
Notation set := (clf64_setting fsum flog fgammaln fbetaln fpow pp delta k depth prior lab el eb B).
Notation e := (clf_ev (map B2R prior)).

(** ** Exact features *)
Section RealFeatures.
Variable prec : R.
Variable srt : (nat -> R) -> nat -> list nat.
Variable d : tset R float64.
Hypothesis Hprec : 0 <= prec.
Hypothesis Hs : sorts Rleb srt.
Hypothesis Hset : set d.
Notation dR := (exact_set lab d (ts_X d)).
Notation near_opt := (near_opt (P' := list float64) Rleb (gap_R prec) mid_R (clf_tgt (B2R pp) 0) (ts_X d) (yR lab) (ts_names d) (ts_dim d) B2R
  (fun a : float64 => is_finite a = true) tau depth).
Notation near_child := (near_child (P' := list float64) Rleb (gap_R prec) mid_R (clf_tgt (B2R pp) 0) (ts_X d) (yR lab) (ts_names d) (ts_dim d) B2R
  (fun a : float64 => is_finite a = true) tau depth).

Lemma apx_here : apx_law (clf_tgt (B2R pp) 0) L (yR lab) (ts_y d) (ts_n d) (ts_dim d) depth B2R (fun a : float64 => is_finite a = true) tau (prior_rel prior).
Proof.
  destruct Hset as [H1 H2 H3 H4 H5 H6 H7 H8 H9]. apply (cl64_apx) with (k := k); auto. destruct H1 as (_ & _ & H1 & _). lia.
Qed.

Lemma unpruned_near t : pfit_root (feat_R prec srt) L (ts_X d) (ts_y d) (ts_names d) 0 (Some prior) (ts_n d) (ts_dim d) = Ok t ->
  near_opt 0%nat (map B2R prior) (seq 0 (ts_n d)) t.
Proof.
  intros E. destruct (cs_set _ _ _ _ _ _ _ _ _ _ _ _ _ _ _ Hset) as (Hn & Hn64 & Hdim & Hnm).
  apply (apx_root Rleb (gap_R prec) mid_R (feat_R prec srt) (clf_tgt (B2R pp) 0) L (ts_X d) (yR lab) (ts_y d) (ts_names d) (ts_n d) (ts_dim d) depth B2R
     (fun a : float64 => is_finite a = true) tau (prior_rel prior) (feat_R_law prec srt Hprec Hs) (clf_tgt_perm _ _) apx_here 0 (Some (map B2R prior)) (Some prior)); auto; try lia.
  - split; reflexivity.
Qed.

Lemma cand_here lvl rows f a b v :
  cand Rleb (gap_R prec) (clf_tgt (B2R pp) 0) (ts_X d) (yR lab) (ts_dim d) lvl (map B2R prior) rows f a b v <->
  split_value (B2R pp) prec e lvl dR rows f a b v.
Proof. exact (cand_value (clf_tgt (B2R pp) 0) (B2R pp) prec clf_ev dR (clf_scored _ _) lvl (map B2R prior) rows f a b v). Qed.

Lemma near_opt_node lvl rows t : near_opt lvl (map B2R prior) rows t ->
  near_split_node thr_R (B2R pp) prec e tau depth dR rows t /\ near_leaf_node (B2R pp) prec e tau depth dR rows t.
Proof.
  intros H. inversion H as [? ? ? i H1 H2 H3 H4|? ? ? i f a b s nm v0 v1 c1 c2 H1 H2 H3 Hcd [F0 Hn0] [F1 Hn1] Hst Hmax Hnm K1 K2|? ? ? ? Hdp Hdt]; subst.
  - split; [exact I|]. intros _. right. right. intros f a b v Hv. apply cand_here in Hv. exact (H4 _ _ _ _ Hv).
  - split; [|exact I]. intros _. split; [exact F0|]. split; [exact Hn0|]. split; [exact F1|].
    exists a, b, s. split; [reflexivity|]. split; [apply cand_here; exact Hcd|]. split; [exact Hn1|]. split; [exact Hst|].
    intros f' a' b' v' Hv'. apply cand_here in Hv'. specialize (Hmax _ _ _ _ Hv'). lra.
  - destruct t as [i|i sd u v c1 c2]; simpl in Hdt; split; try exact I; intros Hl; lia.
Qed.
Lemma near_child_node lvl rows t : rows <> [] -> near_child lvl (map B2R prior) rows t ->
  near_split_node thr_R (B2R pp) prec e tau depth dR rows t /\ near_leaf_node (B2R pp) prec e tau depth dR rows t.
Proof.
  intros Hne H. inversion H as [? ? ? ? G1 G2 G3|? ? ? i G1 G2 G3 G4]; subst.
  - apply (near_opt_node (lvl + 1)). cbn [t_prior t_child_prior clf_tgt] in G3. rewrite add_counts_0 in G3. exact G3.
  - split; [exact I|]. intros _. destruct G1 as [G1|G1].
    + left. destruct rows as [|j [|j' l]]; simpl in *; auto; try lia. congruence.
    + right. left. intros j j' Hj Hj'. cbn [exact_set ts_y]. destruct (Req_EM_T (INR (lab j)) (INR (lab j'))) as [E|E]; [exact E|].
      exfalso. apply G1. exists (yR lab j), (yR lab j'). repeat split; auto; apply in_map; auto.
Qed.

Lemma near_all t : pfit_root (feat_R prec srt) L (ts_X d) (ts_y d) (ts_names d) 0 (Some prior) (ts_n d) (ts_dim d) = Ok t ->
  nodes_ok (goes_left (ts_X d)) (goes_right (ts_X d))
    (fun rows u => near_split_node thr_R (B2R pp) prec e tau depth dR rows u /\ near_leaf_node (B2R pp) prec e tau depth dR rows u) (seq 0 (ts_n d)) t.
Proof.
  intros E. pose proof (unpruned_near t E) as H.
  pose proof (proj1 (near_nodes Rleb (gap_R prec) mid_R (feat_R prec srt) (clf_tgt (B2R pp) 0) (ts_X d) (yR lab) (ts_names d) (ts_dim d) depth B2R
     (fun a : float64 => is_finite a = true) tau (feat_R_law prec srt Hprec Hs) (feat_R_route prec srt Hprec) (fun p => p = map B2R prior)
     ltac:(intros p ys m ->; cbn [t_prior t_child_prior clf_tgt]; apply add_counts_0)) _ _ _ _ H eq_refl) as HN.
  assert (Hne : nodes_ok (goes_left (ts_X d)) (goes_right (ts_X d)) (fun rows (u : tree (pdesc string R) float64 (list float64)) => rows <> []) (seq 0 (ts_n d)) t).
  { destruct (cs_set _ _ _ _ _ _ _ _ _ _ _ _ _ _ _ Hset) as (Hn & Hn64 & Hdim & Hnm).
    assert (E' : perp_fit (feat_R prec srt) L (fun _ _ => false) false 0 (Some prior) d = Ok t) by (unfold perp_fit; rewrite E; reflexivity).
    pose proof (fit_routed (feat_R prec srt) L Rleb ltac:(intros a; apply Rleb_true; lra) (fun _ _ => false) false 0 (Some prior) d t Hs
       ltac:(repeat split; auto; lia) ltac:(apply real_thr; exact Hprec) E') as HR.
    eapply nodes_ok_impl; [|exact HR]. cbv beta. intros r u (H0 & _). exact H0. }
  eapply nodes_ok_impl; [|eapply nodes_ok_and; [exact HN|exact Hne]].
  cbv beta. intros rows u [(lvl & p & -> & [Hu|Hu]) Hr]; [apply (near_opt_node lvl); exact Hu|apply (near_child_node lvl); auto].
Qed.

(** Clear decisions: the exact tree. *)
Lemma same_exact h te t : clf_setting srt k (map B2R prior) h dR -> h_prune h = false -> h_delta h = 0 -> h_pp h = B2R pp -> h_prec h = prec ->
  clf_fit srt h dR = Ok te -> every_node dR te (clear_node (B2R pp) prec e tau depth dR) ->
  pfit_root (feat_R prec srt) L (ts_X d) (ts_y d) (ts_names d) 0 (Some prior) (ts_n d) (ts_dim d) = Ok t -> same_shape te t.
Proof.
  intros Hc Hpr Hdl Hpp Hpc E Hcl Et. pose proof (unpruned_near t Et) as Hn.
  destruct (clf_fit_opt srt k (map B2R prior) h dR Hc) as (te' & t0 & E' & Ho & Et0 & _). rewrite E in E'. injection E' as <-.
  rewrite Hpr in Et0. subst t0. destruct Hc as (_ & _ & _ & Hprior & _). rewrite Hdl, Hpp, Hpc, Hprior in Ho.
  assert (Ht : 0 <= tau).
  { destruct (cs_logs _ _ _ _ _ _ _ _ _ _ _ _ _ _ _ Hset 0%nat ltac:(lia)) as [Hw _]. apply within_pos in Hw.
    destruct (cs_beta _ _ _ _ _ _ _ _ _ _ _ _ _ _ _ Hset) as [Hw' _]. apply within_pos in Hw'. unfold clf_tau. assert (0 < u53) by (rewrite u53_val; lra). assert (0 <= 32 * u53 * B) by (apply Rmult_le_pos; lra). lra. }
  apply (proj1 (clear_same Rleb (gap_R prec) mid_R (feat_R prec srt) (clf_tgt (B2R pp) 0) (ts_X d) (yR lab) (ts_names d) (ts_dim d) depth B2R
     (fun a : float64 => is_finite a = true) tau (feat_R_law prec srt Hprec Hs) (feat_R_route prec srt Hprec) Ht) _ _ _ _ Ho); [|exact Hn].
  pose proof (const_prior dR prec (B2R pp) (map B2R prior) 0 (all_rows dR) te Ho) as Hq.
  eapply nodes_ok_impl; [|eapply nodes_ok_and; [exact Hcl|apply Hq]].
  cbv beta. intros r u [Hu Ep]. destruct u as [i|i sd a b c1 c2]; cbn [clear_node info] in *.
  - destruct Hu as [Hl Hu]. split; [exact Hl|]. destruct Hu as [Hu|Hu]; [left; exact Hu|right]. cbv zeta. rewrite Ep. cbn [t_prior clf_tgt].
    intros f a b v Hv. apply cand_here in Hv. exact (Hu _ _ _ _ Hv).
  - destruct Hu as (Hl & Hgt & x & y & Emid & Hv & Hoth). split; [exact Hl|]. unfold clear. rewrite Ep. cbn [t_prior clf_tgt]. split; [exact Hgt|].
    exists x, y. split; [exact Emid|]. split; [apply cand_here; exact Hv|].
    intros f' a' b' s' Hv' Hne. apply cand_here in Hv'. exact (Hoth _ _ _ _ Hv' Hne).
Qed.
End RealFeatures.

(** ** float64 features *)
Section FloatFeatures.
Variable p : float64.
Variable srt : (nat -> float64) -> nat -> list nat.
Variable srt' : (nat -> R) -> nat -> list nat.
Variable d : tset float64 float64.
Hypothesis Hp : is_finite p = true /\ B2R p = 0.
Hypothesis Hs : sorts fleb srt.
Hypothesis Hs' : sorts Rleb srt'.
Hypothesis Hagree : forall c, (c < ts_dim d)%nat -> srt' (fun i => B2R (ts_X d i c)) (ts_n d) = srt (fun i => ts_X d i c) (ts_n d).
Hypothesis Hfin : finite_entries 53 1024 (ts_X d) (ts_n d) (ts_dim d).
Hypothesis Hsep : separable 53 1024 prec64_pos prec64_lt p (ts_X d) (ts_n d) (ts_dim d).
Hypothesis Hset : set d.
Notation dR := (exact_set lab d (fun i c => B2R (ts_X d i c))).
Notation twin := (twin (feat_f p srt) (feat_R 0 srt') (ts_X d) (fun i c => B2R (ts_X d i c)) Rleb).

Lemma real_setting : set (B2R_set d).
Proof. destruct Hset as [H1 H2 H3 H4 H5 H6 H7 H8 H9]. constructor; assumption. Qed.

Lemma twin_nodes (Q : list nat -> tree (pdesc string float64) float64 (list float64) -> Prop) (Q' : list nat -> tree (pdesc string R) float64 (list float64) -> Prop) :
  (forall rows u u', twin rows u u' -> Q' rows u' -> Q rows u) ->
  forall t rows t', twin rows t t' -> nodes_ok (goes_left (fun i c => B2R (ts_X d i c))) (goes_right (fun i c => B2R (ts_X d i c))) Q' rows t' ->
  nodes_ok (f_left (ts_X d)) (f_right (ts_X d)) Q rows t.
Proof.
  intros HQ. induction t as [i|i sd a b c1 IH1 c2 IH2]; intros rows t' H; inversion H as [|? ? f nm v v' ? ? ? ? c1' c2' Hbt Hg H1 H2]; subst; intros Hn.
  - split; [|exact I]. eapply HQ; [exact H|apply Hn].
  - destruct Hn as (Hn & N1 & N2). cbn [nodes_ok]. split; [eapply HQ; [exact H|exact Hn]|]. split.
    + eapply IH1; [exact H1|]. erewrite filter_ext_in; [exact N1|]. intros r Hr. apply (Hg r Hr).
    + eapply IH2; [exact H2|]. erewrite filter_ext_in; [exact N2|]. intros r Hr. apply (Hg r Hr).
Qed.

Lemma same_neighbours rows f v v' a b : between (feat_f p srt) (feat_R 0 srt') (ts_X d) (fun i c => B2R (ts_X d i c)) Rleb rows f v v' ->
  admissible 0 dR f rows a b -> v' = (a + b) / 2 -> thr_f (ts_X d) rows f a b v.
Proof.
  intros (r & s & Hr & Hsr & Ev & Ev' & Hle & Hg & Hq) ((i & Hi & Ei) & (j & Hj & Ej) & Hab & _ & Hout) Em.
  cbn [f_mid f_gap feat_f feat_R exact_set ts_X] in *. apply Rleb_true in Hle. apply Rgtb_true in Hg.
  assert (Hlt : B2R (ts_X d r f) < B2R (ts_X d s f)).
  { destruct (Req_dec (B2R (ts_X d r f)) (B2R (ts_X d s f))) as [E|]; [|lra]. rewrite E, Rminus_eq_0, Rabs_R0 in Hg. lra. }
  exists r, s. split; [exact Hr|]. split; [exact Hsr|].
  pose proof (Hq i Hi) as Qi. pose proof (Hq j Hj) as Qj. rewrite !Rleb_true in Qi, Qj. pose proof (Hout r Hr) as Or. pose proof (Hout s Hsr) as Os.
  assert (Ea : a = B2R (ts_X d r f)) by (destruct Qi, Qj, Or, Os; lra).
  split; [exact Ea|]. split; [lra|exact Ev].
Qed.

Lemma near_twin rows (u : tree (pdesc string float64) float64 (list float64)) (u' : tree (pdesc string R) float64 (list float64)) : twin rows u u' ->
  near_split_node thr_R (B2R pp) 0 e tau depth dR rows u' /\ near_leaf_node (B2R pp) 0 e tau depth dR rows u' ->
  near_split_node (thr_f (ts_X d)) (B2R pp) 0 e tau depth dR rows u /\ near_leaf_node (B2R pp) 0 e tau depth dR rows u.
Proof.
  intros H [H1 H2]. inversion H as [|? i f nm v v' ? ? c1 c2 c1' c2' Hbt Hg K1 K2]; subst.
  - split; [exact I|exact H2].
  - split; [|exact I]. cbn [near_split_node sd_dim sd_val] in *. intros Hl. destruct (H1 Hl) as (F0 & N0 & F1 & x & z & s & Ht & Hv & Hrest).
    split; [exact F0|]. split; [exact N0|]. split; [exact F1|]. exists x, z, s. split; [|split; [exact Hv|exact Hrest]].
    eapply same_neighbours; [exact Hbt|apply Hv|exact Ht].
Qed.

(** The tree fitted in float64 is best up to [2 tau], down to level [depth]. *)
Theorem near_float same do_prune t : perp_fit (feat_f p srt) L same do_prune 0 (Some prior) d = Ok t ->
  nodes_ok (f_left (ts_X d)) (f_right (ts_X d)) (near_split_node (thr_f (ts_X d)) (B2R pp) 0 e tau depth dR) (seq 0 (ts_n d)) t /\
  (do_prune = false -> nodes_ok (f_left (ts_X d)) (f_right (ts_X d)) (near_leaf_node (B2R pp) 0 e tau depth dR) (seq 0 (ts_n d)) t).
Proof.
  intros E. destruct (fit_twin p srt srt' L same do_prune 0 (Some prior) d t (proj1 Hp) (proj2 Hp) Hs (cs_set _ _ _ _ _ _ _ _ _ _ _ _ _ _ _ Hset) Hfin Hsep Hagree E) as (t' & E' & Ht).
  destruct (perp_fit_inv _ _ _ _ _ _ _ _ E') as (t0' & E0' & Et' & Hpo).
  pose proof (near_all 0 srt' (B2R_set d) (Rle_refl 0) Hs' real_setting t0' E0') as HN. cbn [B2R_set ts_X ts_n] in HN.
  split.
  - apply (twin_nodes _ (near_split_node thr_R (B2R pp) 0 e tau depth dR)) with (t' := t'); [|exact Ht|].
    + intros rows u u' Hu Hq. inversion Hu as [|? i f nm v v' ? ? c1 c2 c1' c2' Hbt Hg K1 K2]; subst; [exact I|].
      apply (near_twin rows _ _ Hu). split; [exact Hq|exact I].
    + eapply pruned_nodes_ok'; [| |exact Hpo|eapply nodes_ok_impl; [|exact HN]].
      * intros. exact I.
      * intros rows i sd a b c1 c2 c1' c2' H. exact H.
      * cbv beta. intros r u [H _]. exact H.
  - intros ->. subst t'. apply (twin_nodes _ (near_leaf_node (B2R pp) 0 e tau depth dR)) with (t' := t0'); [|exact Ht|].
    + intros rows u u' Hu Hq. inversion Hu as [|? i f nm v v' ? ? c1 c2 c1' c2' Hbt Hg K1 K2]; subst; [exact Hq|exact I].
    + eapply nodes_ok_impl; [|exact HN]. cbv beta. intros r u [_ H]. exact H.
Qed.

Lemma copy_of {S P S' P'} (te : tree (pdesc string R) S P) : forall rows (t : tree (pdesc string float64) S' P') t', twin rows t t' -> same_shape te t' -> float_copy (ts_X d) rows te t.
Proof.
  induction te as [i|i sd a b e1 IH1 e2 IH2]; intros rows t t' Ht Hsh; inversion Hsh; subst; inversion Ht as [|? ? f nm v v' ? ? c1 c2 ? ? Hbt Hg K1 K2]; subst.
  - constructor; auto.
  - constructor; auto.
    + destruct Hbt as (r & s & Hr & Hsr & Ev & Ev' & _). exists r, s. split; [exact Hr|]. split; [exact Hsr|]. split; [exact Ev|].
      rewrite Ev'. cbn [f_mid feat_R]. lra.
    + eapply IH1; eauto.
    + eapply IH2; eauto.
Qed.

(** Where the decisions of the exact tree are clear, the float64 tree is its copy. *)
Theorem same_float h te same t : clf_setting srt' k (map B2R prior) h dR -> h_prune h = false -> h_delta h = 0 -> h_pp h = B2R pp -> h_prec h = 0 ->
  clf_fit srt' h dR = Ok te -> every_node dR te (clear_node (B2R pp) 0 e tau depth dR) ->
  perp_fit (feat_f p srt) L same false 0 (Some prior) d = Ok t -> float_copy (ts_X d) (seq 0 (ts_n d)) te t.
Proof.
  intros Hc H1 H2 H3 H4 Ee Hcl E.
  destruct (fit_twin p srt srt' L same false 0 (Some prior) d t (proj1 Hp) (proj2 Hp) Hs (cs_set _ _ _ _ _ _ _ _ _ _ _ _ _ _ _ Hset) Hfin Hsep Hagree E) as (t' & E' & Ht).
  destruct (perp_fit_inv _ _ _ _ _ _ _ _ E') as (t0' & E0' & -> & _).
  eapply copy_of; [exact Ht|].
  apply (same_exact 0 srt' (B2R_set d) (Rle_refl 0) Hs' real_setting h te t0'); auto.
Qed.
End FloatFeatures.
End Fits.
