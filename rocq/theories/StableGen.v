(** * StableGen: trees whose scores are computed with a bounded error, for any likelihood (float64 targets and scores). *)
From Coq Require Import Reals Lra Permutation Sorted String.
From Flocq Require Import Core BinarySingleNaN.
From Verif Require Import Prelude Lists Tree Perp RealOps Api Spec PruneProofs PredictProofs FitProofs OptSpec OptProofs OptFit OptNodes
  ApiSpec ApiProofs ClfSpec ClfProofs SplitFacts NodeFacts Routing Sim FloatFeat FloatProofs NumApi FloatReg FloatSum Stable FloatSame StableFit.
Local Open Scope R_scope.

Section Gen.
Context {P P' : Type}.
Variable L : lik float64 P' float64.
Variables (pp : R) (T : tgt R P R) (ev : P -> list R -> R) (q : P) (pa : option P) (pa' : option P').
Variables (n n_dim depth : nat) (names : list string) (y : nat -> R) (y' : nat -> float64) (tau : R) (rel : P -> P' -> Prop).
Hypothesis Hsc : scored T pp ev.
Hypothesis Hperm : tgt_perm T.
Hypothesis Hmany : t_many T = many.
Hypothesis Hq : t_prior T pa n n_dim = q.
Hypothesis Hrel : rel q (l_prior L pa' n n_dim).
Hypothesis Hconst : forall ys m, t_prior T (Some (t_child_prior T q ys)) m n_dim = q.
Hypothesis Hapx : apx_law T L y y' n n_dim depth B2R (fun a : float64 => is_finite a = true) tau rel.
Hypothesis Htau : 0 <= tau.
Notation e := (ev q).

Lemma const_prior_gen (X : nat -> nat -> R) prec :
  (forall lvl pa rows (t : tree (pdesc string R) R P), opt Rleb (gap_R prec) mid_R T X y names n_dim lvl pa rows t -> t_prior T pa (length rows) n_dim = q ->
     forall l r rows', (length rows' = length rows \/ forall m, t_prior T pa m n_dim = q) ->
     nodes_ok l r (fun r' u => t_prior T (i_prior (info u)) (length r') n_dim = q) rows' t) /\
  (forall lvl p rows (t : tree (pdesc string R) R P), opt_child Rleb (gap_R prec) mid_R T X y names n_dim lvl p rows t -> p = q ->
     forall l r rows', nodes_ok l r (fun r' u => t_prior T (i_prior (info u)) (length r') n_dim = q) rows' t).
Proof.
  apply opt_mutind.
  - intros lvl pa0 rows p Hp Hno Hpa l r rows' Hor. split; [|exact I]. cbn. destruct Hor as [->|Hm]; auto.
  - intros lvl pa0 rows p f a b s nm c1 c2 Hp Hcd Hg Hmax Hnm H1 IH1 H2 IH2 Hpa l r rows' Hor. cbn [nodes_ok]. split; [cbn; destruct Hor as [->|Hm]; auto|].
    split; [apply IH1|apply IH2]; congruence.
  - intros lvl p rows t Hl Hm Ho IH -> l r rows'. apply IH; [apply Hconst|right; intros; apply Hconst].
  - intros lvl p rows Hor -> l r rows'. split; [|exact I]. cbn. apply Hconst.
Qed.

(** ** Exact features *)
Section RealFeatures.
Variable prec : R.
Variable srt : (nat -> R) -> nat -> list nat.
Variable X : nat -> nat -> R.
Hypothesis Hprec : 0 <= prec.
Hypothesis Hs : sorts Rleb srt.
Hypothesis Hd : tset_ok (mkSet n n_dim X y names).
Notation dR := (mkSet n n_dim X y names).
Notation near_opt := (near_opt (P' := P') Rleb (gap_R prec) mid_R T X y names n_dim B2R (fun a : float64 => is_finite a = true) tau depth).
Notation near_child := (near_child (P' := P') Rleb (gap_R prec) mid_R T X y names n_dim B2R (fun a : float64 => is_finite a = true) tau depth).

Lemma unpruned_near_gen t : pfit_root (feat_R prec srt) L X y' names 0 pa' n n_dim = Ok t -> near_opt 0%nat q (seq 0 n) t.
Proof.
  intros E. destruct Hd as (Hn & Hn64 & Hdim & Hnm). cbn [ts_n ts_dim ts_names] in *. rewrite <- Hq.
  apply (apx_root Rleb (gap_R prec) mid_R (feat_R prec srt) T L X y y' names n n_dim depth B2R
     (fun a : float64 => is_finite a = true) tau rel (feat_R_law prec srt Hprec Hs) Hperm Hapx 0 pa pa'); auto; try lia. rewrite Hq. exact Hrel.
Qed.
Lemma cand_gen lvl rows f a b v : cand Rleb (gap_R prec) T X y n_dim lvl q rows f a b v <-> split_value pp prec e lvl dR rows f a b v.
Proof. exact (cand_value T pp prec ev dR Hsc lvl q rows f a b v). Qed.

Lemma near_opt_node_gen lvl rows t : near_opt lvl q rows t ->
  near_split_node thr_R pp prec e tau depth dR rows t /\ near_leaf_node pp prec e tau depth dR rows t.
Proof.
  clear Hq. destruct Hsc as (_ & Hst0 & _).
  intros H. inversion H as [? ? ? i H1 H2 H3 H4|? ? ? i f a b s nm v0 v1 c1 c2 H1 H2 H3 Hcd [F0 Hn0] [F1 Hn1] Hst Hmax Hnm K1 K2|? ? ? ? Hdp Hdt]; subst.
  - split; [exact I|]. intros _. right. right. intros f a b v Hv. apply cand_gen in Hv. pose proof (H4 _ _ _ _ Hv) as H5. rewrite Hst0 in H5. exact H5.
  - rewrite Hst0 in Hn0, Hst. split; [|exact I]. intros _. split; [exact F0|]. split; [exact Hn0|]. split; [exact F1|].
    exists a, b, s. split; [reflexivity|]. split; [apply cand_gen; exact Hcd|]. split; [exact Hn1|]. split; [exact Hst|].
    intros f' a' b' v' Hv'. apply cand_gen in Hv'. specialize (Hmax _ _ _ _ Hv'). lra.
  - destruct t as [i|i sd u v c1 c2]; simpl in Hdt; split; try exact I; intros Hl; lia.
Qed.
Lemma near_child_node_gen lvl rows t : rows <> [] -> near_child lvl q rows t ->
  near_split_node thr_R pp prec e tau depth dR rows t /\ near_leaf_node pp prec e tau depth dR rows t.
Proof.
  clear Hq. intros Hne H. inversion H as [? ? ? ? G1 G2 G3|? ? ? i G1 G2 G3 G4]; subst.
  - apply (near_opt_node_gen (lvl + 1)). rewrite Hconst in G3. exact G3.
  - split; [exact I|]. intros _. destruct G1 as [G1|G1].
    + left. destruct rows as [|j [|j' l]]; simpl in *; auto; try lia. congruence.
    + right. left. intros j j' Hj Hj'. cbn [ts_y]. destruct (Req_EM_T (y j) (y j')) as [E|E]; [exact E|].
      exfalso. apply G1. rewrite Hmany. exists (y j), (y j'). repeat split; auto; apply in_map; auto.
Qed.

Lemma near_all_gen t : pfit_root (feat_R prec srt) L X y' names 0 pa' n n_dim = Ok t ->
  nodes_ok (goes_left X) (goes_right X)
    (fun rows u => near_split_node thr_R pp prec e tau depth dR rows u /\ near_leaf_node pp prec e tau depth dR rows u) (seq 0 n) t.
Proof.
  intros E. pose proof (unpruned_near_gen t E) as H.
  pose proof (proj1 (near_nodes Rleb (gap_R prec) mid_R (feat_R prec srt) T X y names n_dim depth B2R
     (fun a : float64 => is_finite a = true) tau (feat_R_law prec srt Hprec Hs) (feat_R_route prec srt Hprec) (fun p => p = q)
     ltac:(intros p ys m ->; apply Hconst)) _ _ _ _ H eq_refl) as HN.
  assert (Hne : nodes_ok (goes_left X) (goes_right X) (fun rows (u : tree (pdesc string R) float64 P') => rows <> []) (seq 0 n) t).
  { destruct Hd as (Hn & Hn64 & Hdim & Hnm). cbn [ts_n ts_dim ts_names] in *.
    assert (E' : perp_fit (feat_R prec srt) L (fun _ _ => false) false 0 pa' (mkSet n n_dim X y' names) = Ok t) by (unfold perp_fit; cbn [ts_X ts_y ts_names ts_n ts_dim]; rewrite E; reflexivity).
    pose proof (fit_routed (feat_R prec srt) L Rleb ltac:(intros a; apply Rleb_true; lra) (fun _ _ => false) false 0 pa' (mkSet n n_dim X y' names) t Hs
       ltac:(repeat split; auto; lia) ltac:(apply real_thr; exact Hprec) E') as HR.
    eapply nodes_ok_impl; [|exact HR]. cbv beta. intros r u (H0 & _). exact H0. }
  eapply nodes_ok_impl; [|eapply nodes_ok_and; [exact HN|exact Hne]].
  cbv beta. intros rows u [(lvl & p & -> & [Hu|Hu]) Hr]; [apply (near_opt_node_gen lvl); exact Hu|apply (near_child_node_gen lvl); auto].
Qed.

Lemma same_exact_gen te t : opt Rleb (gap_R prec) mid_R T X y names n_dim 0 pa (seq 0 n) te -> every_node dR te (clear_node pp prec e tau depth dR) ->
  pfit_root (feat_R prec srt) L X y' names 0 pa' n n_dim = Ok t -> same_shape te t.
Proof.
  intros Ho Hcl Et. pose proof (unpruned_near_gen t Et) as Hn. destruct Hsc as (_ & Hst0 & _).
  assert (Hl0 : length (seq 0 n) = n) by apply seq_length.
  apply (proj1 (clear_same Rleb (gap_R prec) mid_R (feat_R prec srt) T X y names n_dim depth B2R
     (fun a : float64 => is_finite a = true) tau (feat_R_law prec srt Hprec Hs) (feat_R_route prec srt Hprec) Htau) _ _ _ _ Ho); [|rewrite Hl0, Hq; exact Hn].
  pose proof (proj1 (const_prior_gen X prec) _ _ _ _ Ho ltac:(rewrite Hl0; exact Hq)) as Hc.
  eapply nodes_ok_impl; [|eapply nodes_ok_and; [exact Hcl|apply Hc; left; reflexivity]].
  cbv beta. intros r u [Hu Ep]. destruct u as [i|i sd a b c1 c2]; cbn [clear_node info] in *.
  - destruct Hu as [Hl Hu]. split; [exact Hl|]. destruct Hu as [Hu|Hu]; [left; exact Hu|right]. cbv zeta. rewrite Ep.
    intros f a b v Hv. apply cand_gen in Hv. rewrite Hst0. exact (Hu _ _ _ _ Hv).
  - destruct Hu as (Hl & Hgt & x & z & Emid & Hv & Hoth). split; [exact Hl|]. unfold clear. rewrite Ep. split; [exact Hgt|].
    exists x, z. split; [exact Emid|]. split; [apply cand_gen; exact Hv|].
    intros f' a' b' s' Hv' Hne. apply cand_gen in Hv'. exact (Hoth _ _ _ _ Hv' Hne).
Qed.
End RealFeatures.

(** ** float64 features *)
Section FloatFeatures.
Variable p : float64.
Variable srt : (nat -> float64) -> nat -> list nat.
Variable srt' : (nat -> R) -> nat -> list nat.
Variable X : nat -> nat -> float64.
Notation XR := (fun i c => B2R (X i c)).
Notation d := (mkSet n n_dim X y' names).
Notation dR := (mkSet n n_dim XR y names).
Hypothesis Hp : is_finite p = true /\ B2R p = 0.
Hypothesis Hs : sorts fleb srt.
Hypothesis Hs' : sorts Rleb srt'.
Hypothesis Hagree : forall c, (c < n_dim)%nat -> srt' (fun i => B2R (X i c)) n = srt (fun i => X i c) n.
Hypothesis Hfin : finite_entries 53 1024 X n n_dim.
Hypothesis Hsep : separable 53 1024 prec64_pos prec64_lt p X n n_dim.
Hypothesis Hd : tset_ok d.
Notation twin := (twin (feat_f p srt) (feat_R 0 srt') X XR Rleb).

Lemma dR_ok : tset_ok dR.
Proof. exact Hd. Qed.

Lemma twin_nodes_gen (Q : list nat -> tree (pdesc string float64) float64 (P') -> Prop) (Q' : list nat -> tree (pdesc string R) float64 (P') -> Prop) :
  (forall rows u u', twin rows u u' -> Q' rows u' -> Q rows u) ->
  forall t rows t', twin rows t t' -> nodes_ok (goes_left XR) (goes_right XR) Q' rows t' ->
  nodes_ok (f_left X) (f_right X) Q rows t.
Proof.
  clear Hq. intros HQ. induction t as [i|i sd a b c1 IH1 c2 IH2]; intros rows t' H; inversion H as [|? ? f nm v v' ? ? ? ? c1' c2' Hbt Hg H1 H2]; subst; intros Hn.
  - split; [|exact I]. eapply HQ; [exact H|apply Hn].
  - destruct Hn as (Hn & N1 & N2). cbn [nodes_ok]. split; [eapply HQ; [exact H|exact Hn]|]. split.
    + eapply IH1; [exact H1|]. erewrite filter_ext_in; [exact N1|]. intros r Hr. apply (Hg r Hr).
    + eapply IH2; [exact H2|]. erewrite filter_ext_in; [exact N2|]. intros r Hr. apply (Hg r Hr).
Qed.

Lemma same_neighbours_gen rows f v v' a b : between (feat_f p srt) (feat_R 0 srt') X XR Rleb rows f v v' ->
  admissible 0 dR f rows a b -> v' = (a + b) / 2 -> thr_f X rows f a b v.
Proof.
  intros (r & s & Hr & Hsr & Ev & Ev' & Hle & Hg & Hqq) ((i & Hi & Ei) & (j & Hj & Ej) & Hab & _ & Hout) Em.
  cbn [f_mid f_gap feat_f feat_R ts_X] in *. apply Rleb_true in Hle. apply Rgtb_true in Hg.
  assert (Hlt : B2R (X r f) < B2R (X s f)).
  { destruct (Req_dec (B2R (X r f)) (B2R (X s f))) as [E|]; [|lra]. rewrite E, Rminus_eq_0, Rabs_R0 in Hg. lra. }
  exists r, s. split; [exact Hr|]. split; [exact Hsr|].
  pose proof (Hqq i Hi) as Qi. pose proof (Hqq j Hj) as Qj. rewrite !Rleb_true in Qi, Qj. pose proof (Hout r Hr) as Or. pose proof (Hout s Hsr) as Os.
  assert (Ea : a = B2R (X r f)) by (destruct Qi, Qj, Or, Os; lra).
  split; [exact Ea|]. split; [lra|exact Ev].
Qed.

Lemma near_twin_gen rows (u : tree (pdesc string float64) float64 (P')) (u' : tree (pdesc string R) float64 (P')) : twin rows u u' ->
  near_split_node thr_R pp 0 e tau depth dR rows u' /\ near_leaf_node pp 0 e tau depth dR rows u' ->
  near_split_node (thr_f X) pp 0 e tau depth dR rows u /\ near_leaf_node pp 0 e tau depth dR rows u.
Proof.
  clear Hq. intros H [H1 H2]. inversion H as [|? i f nm v v' ? ? c1 c2 c1' c2' Hbt Hg K1 K2]; subst.
  - split; [exact I|exact H2].
  - split; [|exact I]. cbn [near_split_node sd_dim sd_val] in *. intros Hl. destruct (H1 Hl) as (F0 & N0 & F1 & x & z & s & Ht & Hv & Hrest).
    split; [exact F0|]. split; [exact N0|]. split; [exact F1|]. exists x, z, s. split; [|split; [exact Hv|exact Hrest]].
    eapply same_neighbours_gen; [exact Hbt|apply Hv|exact Ht].
Qed.

(** The tree fitted in float64 is best up to [2 tau], down to level [depth]. *)
Theorem near_float_gen same do_prune t : perp_fit (feat_f p srt) L same do_prune 0 pa' d = Ok t ->
  nodes_ok (f_left X) (f_right X) (near_split_node (thr_f X) pp 0 e tau depth dR) (seq 0 n) t /\
  (do_prune = false -> nodes_ok (f_left X) (f_right X) (near_leaf_node pp 0 e tau depth dR) (seq 0 n) t).
Proof.
  intros E. destruct (fit_twin p srt srt' L same do_prune 0 pa' d t (proj1 Hp) (proj2 Hp) Hs Hd Hfin Hsep Hagree E) as (t' & E' & Ht).
  destruct (perp_fit_inv _ _ _ _ _ _ _ _ E') as (t0' & E0' & Et' & Hpo). cbn [B2R_set ts_X ts_y ts_names ts_n ts_dim] in E0', Ht.
  pose proof (near_all_gen 0 srt' XR (Rle_refl 0) Hs' dR_ok t0' E0') as HN. clear Hq.
  split.
  - apply (twin_nodes_gen _ (near_split_node thr_R pp 0 e tau depth dR)) with (t' := t'); [|exact Ht|].
    + intros rows u u' Hu Hq0. inversion Hu as [|? i f nm v v' ? ? c1 c2 c1' c2' Hbt Hg K1 K2]; subst; [exact I|].
      apply (near_twin_gen rows _ _ Hu). split; [exact Hq0|exact I].
    + eapply pruned_nodes_ok'; [| |exact Hpo|eapply nodes_ok_impl; [|exact HN]].
      * intros. exact I.
      * intros rows i sd a b c1 c2 c1' c2' H. exact H.
      * cbv beta. intros r u [H _]. exact H.
  - intros ->. subst t'. apply (twin_nodes_gen _ (near_leaf_node pp 0 e tau depth dR)) with (t' := t0'); [|exact Ht|].
    + intros rows u u' Hu Hq0. inversion Hu as [|? i f nm v v' ? ? c1 c2 c1' c2' Hbt Hg K1 K2]; subst; [exact Hq0|exact I].
    + eapply nodes_ok_impl; [|exact HN]. cbv beta. intros r u [_ H]. exact H.
Qed.

Lemma copy_of_gen {S S' Q Q'} (te : tree (pdesc string R) S Q) : forall rows (t : tree (pdesc string float64) S' Q') t', twin rows t t' -> same_shape te t' -> float_copy X rows te t.
Proof.
  clear Hq. induction te as [i|i sd a b e1 IH1 e2 IH2]; intros rows t t' Ht Hsh; inversion Hsh; subst; inversion Ht as [|? ? f nm v v' ? ? c1 c2 ? ? Hbt Hg K1 K2]; subst.
  - constructor; auto.
  - constructor; auto.
    + destruct Hbt as (r & s & Hr & Hsr & Ev & Ev' & _). exists r, s. split; [exact Hr|]. split; [exact Hsr|]. split; [exact Ev|].
      rewrite Ev'. cbn [f_mid feat_R]. lra.
    + eapply IH1; eauto.
    + eapply IH2; eauto.
Qed.

(** Where the decisions of the exact tree are clear, the float64 tree is its copy. *)
Theorem same_float_gen te same t : opt Rleb (gap_R 0) mid_R T XR y names n_dim 0 pa (seq 0 n) te -> every_node dR te (clear_node pp 0 e tau depth dR) ->
  perp_fit (feat_f p srt) L same false 0 pa' d = Ok t -> float_copy X (seq 0 n) te t.
Proof.
  intros Ho Hcl E.
  destruct (fit_twin p srt srt' L same false 0 pa' d t (proj1 Hp) (proj2 Hp) Hs Hd Hfin Hsep Hagree E) as (t' & E' & Ht).
  destruct (perp_fit_inv _ _ _ _ _ _ _ _ E') as (t0' & E0' & -> & _). cbn [B2R_set ts_X ts_y ts_names ts_n ts_dim] in E0', Ht.
  eapply copy_of_gen; [exact Ht|].
  apply (same_exact_gen 0 srt' XR (Rle_refl 0) Hs' dR_ok te t0'); auto.
Qed.
End FloatFeatures.
End Gen.
