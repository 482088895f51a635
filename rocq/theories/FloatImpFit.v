(** * FloatImpFit: float64 feature importance of fitted trees, alone and against the exact one. *)
From Coq Require Import Reals Lra Permutation Psatz String.
From Flocq Require Import Core BinarySingleNaN.
From Verif Require Import Prelude Lists Tree Perp RealOps Clf Reg Api Spec PredictProofs FitProofs StructProofs PruneProofs OptSpec OptProofs OptFit OptNodes
  ApiSpec ApiProofs ClfSpec ClfProofs RegSpec RegProofs SplitFacts NodeFacts Importance ImportanceSpec ImportanceProofs
  FloatFeat FloatProofs NumApi FloatReg FloatSum FloatNG FloatClf FloatClfSum FloatClfErr Stable FloatSame StableFit StableGen FloatRegErr FloatRegScore FloatRegFit FloatImp FloatImpSpec FloatImpProofs.
Local Open Scope R_scope.

(** ** Splits of a fitted tree: features in range, and a strictly larger score than stopping *)
Section Generic.
Context {A V Y P S : Type}.
Variable F : feat A V.
Variable L : lik Y P S.
Hypothesis Htrans : forall a b c, l_gt L a b = true -> l_gt L b c = true -> l_gt L a c = true.

Lemma scan_gt (X : nat -> nat -> A) (y : nat -> Y) lvl prior idxs ns :
  scan F L X y lvl prior idxs ns = mkBest ns (-1) (-1) \/ l_gt L (b_score (scan F L X y lvl prior idxs ns)) ns = true.
Proof.
  unfold scan. set (nd := length idxs). generalize (combine (seq 0 nd) idxs) as l.
  assert (G : forall l b, b = mkBest ns (-1) (-1) \/ l_gt L (b_score b) ns = true ->
     fold_left (scan_dim F L X y lvl prior nd) l b = mkBest ns (-1) (-1) \/ l_gt L (b_score (fold_left (scan_dim F L X y lvl prior nd) l b)) ns = true).
  { induction l as [|[dim row] l IH]; intros b Hb; cbn [fold_left]; [exact Hb|]. apply IH.
    unfold scan_dim. destruct (split_positions _ _) as [|k ks]; [exact Hb|].
    destruct (nth_error (l_split L _ _ _ _ _) _) as [s|]; [|exact Hb]. destruct (nth_error (k :: ks) _); [|exact Hb].
    destruct (l_gt L s (b_score b)) eqn:E; [|exact Hb]. right. cbn [b_score]. destruct Hb as [->|Hb]; [exact E|]. eapply Htrans; eauto. }
  intros l. apply G. left. reflexivity.
Qed.

Lemma nfit_splits {NM} (X : nat -> nat -> A) (y : nat -> Y) (names : list NM) n_dim :
  (forall lvl pa rows idxs t, nfit F L X y names lvl pa rows idxs t -> length idxs = n_dim ->
     forall s, In s (splits t) -> (sd_dim (fst (fst s)) < n_dim)%nat /\ l_gt L (snd s) (snd (fst s)) = true) /\
  (forall lvl prior rows idxs t, nfit_child F L X y names lvl prior rows idxs t -> length idxs = n_dim ->
     forall s, In s (splits t) -> (sd_dim (fst (fst s)) < n_dim)%nat /\ l_gt L (snd s) (snd (fst s)) = true).
Proof.
  apply nfit_mutind.
  - intros. contradiction.
  - intros lvl pa rows idxs prior ns bst dim row k nm v c1 c2 Hwf Hp Hns Hb Hc Hrow Hd Hi Hin Hk Hnm Hv H1 IH1 H2 IH2 Hl s Hs.
    cbn [splits] in Hs. destruct Hs as [<-|Hs].
    + cbn [fst snd sd_dim]. split; [rewrite <- Hl; apply nth_error_Some; congruence|].
      destruct (scan_gt X y lvl prior idxs ns) as [E|E]; rewrite <- Hb in E; [|exact E].
      rewrite E in Hi. cbn [b_idx] in Hi. lia.
    + apply in_app_iff in Hs as [Hs|Hs]; eauto.
  - intros lvl prior rows idxs sub t Hl Hm -> H IH Hn. apply IH. rewrite map_length. exact Hn.
  - intros. contradiction.
Qed.

Lemma pruned_splits {D Sc Q} (t t' : tree D Sc Q) : pruned_of t t' -> incl (splits t') (splits t).
Proof.
  induction 1 as [i|i s a b c1 c2|i s a b c1 c2 c1' c2' H1 IH1 H2 IH2]; intros x Hx; cbn [splits] in *; auto; try contradiction.
  destruct Hx as [<-|Hx]; [left; reflexivity|]. right. apply in_app_iff in Hx as [Hx|Hx]; apply in_app_iff; auto.
Qed.
Lemma splits_leaves {D Sc Q} (t : tree D Sc Q) : length (leaves t) = Datatypes.S (length (splits t)).
Proof. induction t as [i|i s a b c1 IH1 c2 IH2]; cbn [leaves splits length]; [reflexivity|]. rewrite !app_length, IH1, IH2. cbn [length]. lia. Qed.

Lemma nfit_n_dim {NM} (X : nat -> nat -> A) (y : nat -> Y) (names : list NM) lvl pa rows idxs t :
  nfit F L X y names lvl pa rows idxs t -> i_n_dim (info t) = Some (length idxs).
Proof. destruct 1; reflexivity. Qed.

Lemma fit_splits same do_prune lvl pa (d : tset A Y) t : permutes (f_argsort F) -> tset_ok d -> perp_fit F L same do_prune lvl pa d = Ok t ->
  i_n_dim (info t) = Some (ts_dim d) /\ (length (splits t) < ts_n d)%nat /\
  forall s, In s (splits t) -> (sd_dim (fst (fst s)) < ts_dim d)%nat /\ l_gt L (snd s) (snd (fst s)) = true.
Proof.
  intros Hp Hok E.
  destruct (perp_fit_total F L same do_prune lvl pa d Hp Hok) as (t' & E' & HN & _ & C & _). rewrite E in E'. injection E' as <-.
  destruct Hok as (Hn & Hn64 & Hdim & Hnm).
  destruct (root_indices_wf' F (ts_X d) (ts_n d) (ts_dim d) Hp Hn64) as [Hwf Hlen]; [lia|].
  destruct (perp_fit_inv _ _ _ _ _ _ _ _ E) as (t0 & E0 & _ & Hpr). unfold pfit_root in E0.
  assert (Hfit : nfit F L (ts_X d) (ts_y d) (ts_names d) lvl pa (seq 0 (ts_n d)) (root_indices F (ts_X d) (ts_n d) (ts_dim d)) t0).
  { eapply pfit_nfit; [exact Hwf|rewrite Hlen; lia| |exact E0]. rewrite seq_length. lia. }
  split; [rewrite (pruned_info _ _ Hpr), (nfit_n_dim _ _ _ _ _ _ _ _ Hfit), Hlen; reflexivity|]. split.
  - pose proof (leaves_le_data t C) as H. rewrite splits_leaves, HN in H. lia.
  - intros s Hs. apply (proj1 (nfit_splits (ts_X d) (ts_y d) (ts_names d) (ts_dim d)) _ _ _ _ _ Hfit Hlen). eapply pruned_splits; eauto.
Qed.
End Generic.

Lemma lt_trans (a b c : float64) : Bltb b a = true -> Bltb c b = true -> Bltb c a = true.
Proof.
  intros H1 H2. destruct (is_finite a) eqn:Fa; [destruct (is_finite b) eqn:Fb; [destruct (is_finite c) eqn:Fc|]|].
  - rewrite Bltb_correct in * by assumption. destruct (Rlt_bool_spec (B2R b) (B2R a)), (Rlt_bool_spec (B2R c) (B2R b)); try discriminate. apply Rlt_bool_true. lra.
  - destruct c as [|[]| |]; try discriminate; destruct a; try discriminate; try reflexivity; destruct b; discriminate.
  - destruct b as [|[]| |]; try discriminate; destruct a; try discriminate; destruct c as [|[]| |]; discriminate.
  - destruct a as [|[]| |]; try discriminate; destruct b as [|[]| |]; try discriminate; destruct c as [|[]| |]; try discriminate; reflexivity.
Qed.

(** The float64 importance of any tree fitted in float64. *)
Theorem fit_importance64 {A V P} (F : feat A V) (L : lik float64 P float64) fsum same do_prune lvl pa (d : tset A float64) t :
  l_gt L = (fun a b => Bltb b a) -> (forall l, sum_of l (fsum l)) -> permutes (f_argsort F) -> tset_ok d -> (Z.of_nat (ts_n d + ts_dim d) <= 2 ^ 20)%Z ->
  perp_fit F L same do_prune lvl pa d = Ok t -> splits t <> [] -> scores_finite t ->
  exists v, f_feature_importance fsum t = Ok v /\ importance64 (ts_dim d) t v.
Proof.
  intros Hgt Hsum Hp Hok Hn E Hne Hfin.
  destruct (fit_splits F L ltac:(rewrite Hgt; intros a b c H1 H2; exact (lt_trans a b c H1 H2)) same do_prune lvl pa d t Hp Hok E) as (Hd & Hl & Hs).
  apply importance64_spec; auto; [lia|]. intros s Hin. destruct (Hs s Hin) as [H1 H2]. rewrite Hgt in H2. split; assumption.
Qed.

(** ** Against the exact tree *)
(** A node of the exact tree: its scores are the exact values of stopping and of a best split. *)
Definition exact_scores {P} (pp : R) (e : list R -> R) (depth : nat) (d : tset R R) (rows : list nat) (t : tree (pdesc string R) R P) : Prop :=
  match t with
  | Leaf _ => True
  | Split i s a b _ _ => (i_level i <= depth)%nat /\ a = stop_value pp e (i_level i) d rows /\
      (exists f x z, split_value pp 0 e (i_level i) d rows f x z b) /\
      forall f x z v, split_value pp 0 e (i_level i) d rows f x z v -> v <= b
  end.
(** Recorded splits of both trees: the same feature, scores that differ by at most [tau] and [3 tau]. *)
Definition close_split (tau : R) (s : pdesc string R * R * R) (s' : pdesc string float64 * float64 * float64) : Prop :=
  feature64 s' = feature s /\ is_finite (snd (fst s')) = true /\ is_finite (snd s') = true /\
  Rabs (B2R (snd (fst s')) - snd (fst s)) <= tau /\ Rabs (B2R (snd s') - snd s) <= 3 * tau.

Lemma Rgeb_ltb (x y : R) : Rgeb x y = negb (Rltb x y).
Proof.
  destruct (Rltb x y) eqn:E1; cbn [negb].
  - apply Rltb_true in E1. apply Rgeb_false. lra.
  - apply Rltb_false in E1. apply Rgeb_true. lra.
Qed.

Lemma copy_scores {P P'} (X : nat -> nat -> float64) pp e tau depth (d : tset R R) (te : tree (pdesc string R) R P) : forall rows (t : tree (pdesc string float64) float64 P'),
  float_copy X rows te t ->
  nodes_ok (goes_left (fun i c => B2R (X i c))) (goes_right (fun i c => B2R (X i c))) (exact_scores pp e depth d) rows te ->
  nodes_ok (f_left X) (f_right X) (near_split_node (thr_f X) pp 0 e tau depth d) rows t ->
  Forall2 (close_split tau) (splits te) (splits t).
Proof.
  induction te as [i|i sd a b e1 IH1 e2 IH2]; intros rows t Hc; inversion Hc as [|? ? i' f nm v v' ? ? a' b' ? ? c1 c2 L1 L2 L3 Hmid Hg K1 K2]; subst.
  - intros _ _. constructor.
  - intros [N0 [N1 N2]] [N0' [N1' N2']]. cbn [splits]. 
    assert (F1 : filter (goes_left (fun i c => B2R (X i c)) (mkDesc f nm v)) rows = filter (fun r => Bltb (X r f) v') rows).
    { apply filter_ext_in. intros r Hr. unfold goes_left. cbn [sd_dim sd_val]. symmetry. apply Hg. exact Hr. }
    assert (F2 : filter (goes_right (fun i c => B2R (X i c)) (mkDesc f nm v)) rows = filter (fun r => Bleb v' (X r f)) rows).
    { apply filter_ext_in. intros r Hr. unfold goes_right. cbn [sd_dim sd_val]. symmetry. apply Hg. exact Hr. }
    constructor.
    + cbn [exact_scores near_split_node] in N0, N0'. destruct N0 as (Hl & Ha & (f0 & x0 & z0 & Hb) & Hmax). rewrite L1 in N0'.
      destruct (N0' Hl) as (G1 & G2 & G3 & x & z & w & _ & Hw & G4 & _ & G5).
      unfold close_split, feature64, feature. cbn [fst snd sd_dim]. split; [reflexivity|]. split; [exact G1|]. split; [exact G3|]. split; [rewrite Ha; exact G2|].
      specialize (G5 _ _ _ _ Hb). specialize (Hmax _ _ _ _ Hw). apply Rabs_le_inv in G4. apply Rabs_le. lra.
    + apply Forall2_app.
      * eapply IH1; [exact K1|rewrite <- F1; exact N1|exact N1'].
      * eapply IH2; [exact K2|rewrite <- F2; exact N2|exact N2'].
Qed.

Lemma close_gains tau : forall l l', Forall2 (close_split tau) l l' ->
  length l' = length l /\ Rabs (vsum (map gain64 l') - vsum (map gain l)) <= 4 * tau * INR (length l) /\
  forall f, Rabs (vsum (map gain64 (filter (fun s => Nat.eqb (feature64 s) f) l')) - vsum (map gain (filter (fun s => Nat.eqb (feature s) f) l))) <= 4 * tau * INR (length l).
Proof.
  induction 1 as [|s s' l l' (E & _ & _ & H1 & H2) H (IL & IT & IF)].
  - split; [reflexivity|]. cbn [map filter]. change (vsum []) with 0. simpl (INR _). rewrite Rminus_0_r, Rabs_R0. split; [lra|]. intros f. lra.
  - assert (Hg : Rabs (gain64 s' - gain s) <= 4 * tau).
    { destruct s as [[ds a] b], s' as [[ds' a'] b']. unfold gain64, gain. cbn [fst snd] in *. apply Rabs_le_inv in H1. apply Rabs_le_inv in H2. apply Rabs_le. lra. }
    assert (Ht : 0 <= tau) by (pose proof (Rabs_pos (B2R (snd (fst s')) - snd (fst s))); lra).
    cbn [length map filter]. rewrite S_INR. split; [lia|]. apply Rabs_le_inv in Hg. split.
    + rewrite !vsum_cons. apply Rabs_le_inv in IT. apply Rabs_le. lra.
    + intros f. specialize (IF f). rewrite E. apply Rabs_le_inv in IF. apply Rabs_le.
      destruct (Nat.eqb (feature s) f); cbn [map]; rewrite ?vsum_cons; lra.
Qed.

Lemma vsum_sub_nonneg {X} (g : X -> R) (p : X -> bool) l : (forall s, In s l -> 0 <= g s) -> 0 <= vsum (map g (filter p l)) <= vsum (map g l).
Proof.
  induction l as [|s l IH]; intros H; cbn [filter map].
  - change (vsum []) with 0. lra.
  - specialize (IH (fun u Hu => H u (or_intror Hu))). specialize (H s (or_introl eq_refl)). destruct (p s); cbn [map]; rewrite ?vsum_cons; lra.
Qed.

Lemma close_share G G' g g' D : 0 < G -> 0 < G' -> 0 <= g' <= G' -> Rabs (G' - G) <= D -> Rabs (g' - g) <= D -> Rabs (g' / G' - g / G) <= 2 * D / G.
Proof.
  intros HG HG' Hg H1 H2. replace (g' / G' - g / G) with ((g' - g) / G + g' / G' * ((G - G') / G)) by (field; lra).
  assert (I : 0 < / G) by (apply Rinv_0_lt_compat; exact HG). assert (I' : 0 < / G') by (apply Rinv_0_lt_compat; exact HG').
  assert (S : 0 <= g' / G' <= 1).
  { split; [apply Rmult_le_pos; lra|]. apply Rmult_le_reg_r with G'; [exact HG'|]. unfold Rdiv. rewrite Rmult_assoc, Rinv_l by lra. lra. }
  eapply Rle_trans; [apply Rabs_triang|]. rewrite Rabs_mult, (Rabs_pos_eq (g' / G')) by lra.
  unfold Rdiv at 1 3 4. rewrite !Rabs_mult, (Rabs_pos_eq (/ G)) by lra. rewrite (Rabs_minus_sym G G').
  assert (A : Rabs (g' - g) * / G <= D * / G) by (apply Rmult_le_compat_r; lra).
  assert (B : Rabs (G' - G) * / G <= D * / G) by (apply Rmult_le_compat_r; lra).
  assert (B0 : 0 <= Rabs (G' - G) * / G) by (apply Rmult_le_pos; [apply Rabs_pos|lra]).
  replace (2 * D / G) with (D * / G + D * / G) by (unfold Rdiv; ring). nra.
Qed.

(** Exact scores of magnitude at most 2^898. *)
Definition scores_below {P} (te : tree (pdesc string R) R P) : Prop :=
  forall s, In s (splits te) -> Rabs (snd (fst s)) <= b2 898 /\ Rabs (snd s) <= b2 898.
(** The computed importances [v] against the exact ones [w]: rounding errors, plus eight times the error of a score for every
    split, relative to the total gain of the tree. *)
Definition importances_close {P} (n_dim : nat) (tau : R) (te : tree (pdesc string R) R P) (v : list float64) (w : list R) : Prop :=
  length v = n_dim /\ length w = n_dim /\ forall f, (f < n_dim)%nat -> is_finite (nth f v f_zero) = true /\
    Rabs (B2R (nth f v f_zero) - nth f w 0) <=
      10 * INR (length (splits te) + n_dim + 1) * u53 + b2 (-1075) + 8 * tau * INR (length (splits te)) / total_gain te.

Lemma copy_finite {P P'} (te : tree (pdesc string R) R P) (t : tree (pdesc string float64) float64 P') tau :
  Forall2 (close_split tau) (splits te) (splits t) -> tau <= b2 898 -> scores_below te -> scores_finite t.
Proof.
  intros HF Htau Hbd.
  intros s' Hin. apply In_nth with (d := s') in Hin as (j & Hj & Ej).
    assert (H2 : forall l l', Forall2 (close_split tau) l l' -> forall j x', nth_error l' j = Some x' -> exists x, In x l /\ close_split tau x x').
    { clear. induction 1 as [|x x' l l' Hx H IH]; intros [|j] y' E; try discriminate.
      - injection E as <-. exists x. split; [left; reflexivity|exact Hx].
      - destruct (IH _ _ E) as (z & Hz & Hz'). exists z. split; [right; exact Hz|exact Hz']. }
    destruct (H2 _ _ HF j s') as (s & Hin & (_ & F0 & F1 & C0 & C1)); [rewrite <- Ej; apply nth_error_nth'; exact Hj|].
    destruct (Hbd s Hin) as [B0 B1]. split; [exact F0|]. split; [exact F1|].
    assert (E : b2 900 = 4 * b2 898) by (change 900%Z with (2 + 898)%Z; rewrite bpow_plus; change (b2 2) with 4; ring). fold (b2 900). rewrite E.
    apply Rabs_le_inv in B0. apply Rabs_le_inv in B1. apply Rabs_le_inv in C0. apply Rabs_le_inv in C1. split; apply Rabs_le; lra.
Qed.
Lemma copy_importance {P P'} (te : tree (pdesc string R) R P) (t : tree (pdesc string float64) float64 P') fsum n_dim tau :
  (forall l, sum_of l (fsum l)) -> Forall2 (close_split tau) (splits te) (splits t) -> tau <= b2 898 -> scores_below te ->
  i_n_dim (info te) = Some n_dim -> (forall s, In s (splits te) -> (feature s < n_dim)%nat /\ 0 < gain s) ->
  i_n_dim (info t) = Some n_dim -> (forall s, In s (splits t) -> (feature64 s < n_dim)%nat /\ Bltb (snd (fst s)) (snd s) = true) ->
  splits te <> [] -> (Z.of_nat (length (splits t) + n_dim + 1) <= 2 ^ 20)%Z ->
  exists v w, f_feature_importance fsum t = Ok v /\ feature_importance te = Ok (map Some w) /\ importances_close n_dim tau te v w.
Proof.
  intros Hsum HF Htau Hbd Hd Hs Hd' Hs' Hne Hk.
  destruct (close_gains tau _ _ HF) as (Hlen & HT & Hf).
  assert (Hne' : splits t <> []) by (intros E; rewrite E in Hlen; destruct (splits te); [congruence|discriminate]).
  assert (Hfin : scores_finite t).
  { exact (copy_finite te t tau HF Htau Hbd). }
  destruct (importance64_spec fsum n_dim t Hsum Hd' Hne' Hk Hfin Hs') as (v & Ev & Hv).
  destruct (importance_spec n_dim te Hd Hne Hs) as (w & Ew & Hw).
  exists v, w. split; [exact Ev|]. split; [exact Ew|].
  destruct Hv as (Lv & Fv & Cv & _). destruct Hw as (Lw & _ & Cw). split; [exact Lv|]. split; [exact Lw|].
  intros f Hf'. split.
  { rewrite Forall_forall in Fv. apply Fv. apply nth_In. lia. }
  destruct (Cw f Hf') as (_ & _ & ->). specialize (Cv f Hf').
  assert (HG : 0 < total_gain te).
  { unfold total_gain. apply vsum_pos; [destruct (splits te); [congruence|discriminate]|]. intros x Hx. apply in_map_iff in Hx as (s & <- & Hin). apply Hs. exact Hin. }
  assert (Hp : forall s, In s (splits t) -> 0 < gain64 s).
  { intros s Hin. destruct (Hfin s Hin) as (F0 & F1 & _). destruct (Hs' s Hin) as [_ H]. unfold gain64.
    rewrite (Bltb_correct 53 1024 _ _ F0 F1) in H. destruct (Rlt_bool_spec (B2R (snd (fst s))) (B2R (snd s))); [lra|discriminate]. }
  assert (HG' : 0 < vsum (map gain64 (splits t))).
  { apply vsum_pos; [destruct (splits t); [congruence|discriminate]|]. intros x Hx. apply in_map_iff in Hx as (s & <- & Hin). apply Hp. exact Hin. }
  pose proof (vsum_sub_nonneg gain64 (fun s => Nat.eqb (feature64 s) f) (splits t) (fun s Hin => Rlt_le _ _ (Hp s Hin))) as Hsub.
  pose proof (close_share (total_gain te) (vsum (map gain64 (splits t))) (gain_on f te) (vsum (map gain64 (filter (fun s => Nat.eqb (feature64 s) f) (splits t)))) _ HG HG' Hsub HT (Hf f)) as Hsh.
  fold (share64 t f) in Hsh. rewrite Hlen in Cv.
  assert (S1 : 0 <= share64 t f <= 1).
  { unfold share64. split; [apply Rmult_le_pos; [lra|left; apply Rinv_0_lt_compat; lra]|]. apply Rmult_le_reg_r with (vsum (map gain64 (splits t))); [exact HG'|]. unfold Rdiv. rewrite Rmult_assoc, Rinv_l by lra. lra. }
  pose proof u53_pos as Hu. pose proof (pos_INR (length (splits te) + n_dim + 1)) as Hk0. fold (b2 (-1075)) in Cv.
  assert (K : 10 * INR (length (splits te) + n_dim + 1) * u53 * share64 t f <= 10 * INR (length (splits te) + n_dim + 1) * u53).
  { assert (0 <= 10 * INR (length (splits te) + n_dim + 1) * u53) by (apply Rmult_le_pos; lra). nra. }
  replace (2 * (4 * tau * INR (length (splits te))) / total_gain te) with (8 * tau * INR (length (splits te)) / total_gain te) in Hsh by (field; lra).
  apply Rabs_le_inv in Cv. apply Rabs_le_inv in Hsh. apply Rabs_le. lra.
Qed.

(** Nodes of the exact trees. *)
Lemma clf_exact_scores srt k prior h (d : tset R R) te tau depth : clf_setting srt k prior h d -> h_prune h = false -> h_delta h = 0 -> h_prec h = 0 ->
  clf_fit srt h d = Ok te -> every_node d te (clear_node (h_pp h) 0 (clf_ev prior) tau depth d) ->
  every_node d te (exact_scores (h_pp h) (clf_ev prior) depth d).
Proof.
  intros Hc Hpr Hdl Hpc E Hcl. pose proof (clf_best_splits srt k prior h d te Hc E) as HB.
  destruct (clf_fit_opt srt k prior h d Hc) as (te' & t0 & E' & Ho & Et0 & _). rewrite E in E'. injection E' as <-.
  rewrite Hpr in Et0. subst t0. destruct Hc as (_ & _ & _ & Hprior & _). rewrite Hdl, Hprior in Ho.
  pose proof (const_prior d (h_prec h) (h_pp h) prior 0 (all_rows d) te Ho) as Hq. rewrite Hpc in HB. unfold every_node in *.
  eapply nodes_ok_impl; [|eapply nodes_ok_and; [exact HB|eapply nodes_ok_and; [exact Hcl|apply Hq]]]. cbv beta.
  intros r u (H1 & H2 & H3). destruct u as [i|i s a b c1 c2]; [exact I|]. cbn [exact_scores best_split_node clear_node info] in *.
  unfold node_prior in H1. rewrite H3 in H1. destruct H1 as (Ha & x & z & _ & Hv & _ & Hmax). split; [apply H2|]. split; [exact Ha|]. split; [eauto|].
  intros f' a' b' v' Hv'. apply (Hmax _ _ _ _ Hv').
Qed.
Lemma reg_exact_scores srt prior h (d : tset R R) te tau depth : reg_setting srt prior h d -> h_prune h = false -> h_delta h = 0 -> h_prec h = 0 ->
  reg_fit srt h d = Ok te -> every_node d te (clear_node (h_pp h) 0 (ng_logev prior) tau depth d) ->
  every_node d te (exact_scores (h_pp h) (ng_logev prior) depth d).
Proof.
  intros Hc Hpr Hdl Hpc E Hcl. pose proof (reg_best_splits srt prior h d te Hc E) as HB. pose proof (reg_nodes0 srt prior h d te Hc Hdl E) as HN.
  destruct (reg_fit_opt srt prior h d Hc) as (te' & t0 & E' & Ho & Et0 & _). rewrite E in E'. injection E' as <-.
  rewrite Hpr in Et0. subst t0. destruct Hc as (_ & _ & _ & Hprior & Hok). rewrite Hdl in Ho.
  assert (Hl : length (all_rows d) = ts_n d) by apply seq_length.
  assert (Hconst : forall ys m, t_prior (reg_tgt (h_pp h) 0) (Some (t_child_prior (reg_tgt (h_pp h) 0) prior ys)) m (ts_dim d) = prior).
  { intros ys m. cbn [t_prior t_child_prior reg_tgt]. apply ng_update_0. exact Hok. }
  pose proof (proj1 (const_prior_gen (reg_tgt (h_pp h) 0) prior (ts_dim d) (ts_names d) (ts_y d) Hconst (ts_X d) (h_prec h)) _ _ _ _ Ho) as Hq.
  rewrite Hpc in HB. unfold every_node in *.
  eapply nodes_ok_impl; [|eapply nodes_ok_and; [exact HB|eapply nodes_ok_and; [exact Hcl|eapply nodes_ok_and; [exact HN|apply Hq; [|left; reflexivity]]]]].
  - cbv beta. intros r u (H1 & H2 & (_ & Hn & _) & H3). destruct u as [i|i s a b c1 c2]; [exact I|]. cbn [exact_scores best_split_node clear_node info] in *.
    unfold node_prior in H1. rewrite Hn in H1. cbn [t_prior reg_tgt] in H3.
    replace (match i_prior i with Some p => p | None => default_ng (length r) end) with prior in H1 by (rewrite <- H3; destruct (i_prior i); reflexivity).
    destruct H1 as (Ha & x & z & _ & Hv & _ & Hmax). split; [apply H2|]. split; [exact Ha|]. split; [eauto|].
    intros f' a' b' v' Hv'. apply (Hmax _ _ _ _ Hv').
  - rewrite Hl. symmetry. exact Hprior.
Qed.

(** ** The two end-to-end statements *)
Theorem clf_importance64 fsum flog fgammaln fbetaln fpow pp delta k depth prior lab el eb B p srt srt' (d : tset float64 float64) h te same t :
  is_finite p = true /\ B2R p = 0 -> sorts fleb srt -> sorts Rleb srt' ->
  (forall c, (c < ts_dim d)%nat -> srt' (fun i => B2R (ts_X d i c)) (ts_n d) = srt (fun i => ts_X d i c) (ts_n d)) ->
  finite_entries 53 1024 (ts_X d) (ts_n d) (ts_dim d) -> separable 53 1024 prec64_pos prec64_lt p (ts_X d) (ts_n d) (ts_dim d) ->
  clf64_setting fsum flog fgammaln fbetaln fpow pp delta k depth prior lab el eb B d ->
  let dR := exact_set lab d (fun i c => B2R (ts_X d i c)) in let tau := clf_tau el eb B in
  clf_setting srt' k (map B2R prior) h dR -> h_prune h = false -> h_delta h = 0 -> h_pp h = B2R pp -> h_prec h = 0 ->
  clf_fit srt' h dR = Ok te -> every_node dR te (clear_node (B2R pp) 0 (clf_ev (map B2R prior)) tau depth dR) ->
  perp_fit (feat_f p srt) (cl64_lik fsum flog fgammaln fbetaln fpow pp delta) same false 0 (Some prior) d = Ok t ->
  (forall l, sum_of l (fsum l)) -> (Z.of_nat (ts_n d + ts_dim d) <= 2 ^ 20)%Z -> tau <= b2 898 -> scores_below te -> splits te <> [] ->
  exists v w, f_feature_importance fsum t = Ok v /\ feature_importance te = Ok (map Some w) /\ importances_close (ts_dim d) tau te v w.
Proof.
  intros H1 H2 H3 H4 H5 H6 H7 dR tau K1 K2 K3 K4 K5 Ee Hc E Hsum Hsz Htau Hbd Hne.
  pose proof (same_float fsum flog fgammaln fbetaln fpow pp delta k depth prior lab el eb B p srt srt' d H1 H2 H3 H4 H5 H6 H7 h te same t K1 K2 K3 K4 K5 Ee Hc E) as Hcopy.
  destruct (near_float fsum flog fgammaln fbetaln fpow pp delta k depth prior lab el eb B p srt srt' d H1 H2 H3 H4 H5 H6 H7 same false t E) as [Hnear _].
  rewrite <- K4 in Hc. pose proof (clf_exact_scores srt' k _ h dR te tau depth K1 K2 K3 K5 Ee Hc) as Hex. rewrite K4 in Hex.
  pose proof (copy_scores (ts_X d) _ _ _ _ dR te _ t Hcopy Hex Hnear) as HF.
  destruct (fit_splits (feat_f p srt) (cl64_lik fsum flog fgammaln fbetaln fpow pp delta) lt_trans same false 0 (Some prior) d t (fun key m => proj1 (H2 key m)) (cs_set _ _ _ _ _ _ _ _ _ _ _ _ _ _ _ H7) E) as (Hd' & Hl' & Hs').
  apply copy_importance; auto.
  - exact (clf_root_dim srt' k _ h dR te K1 Ee).
  - exact (best_split_gain _ _ _ _ _ _ (clf_best_splits srt' k _ h dR te K1 Ee)).
  - lia.
Qed.

Theorem reg_importance64 fsum flog fgammaln fpow f2pi pp delta depth pa M el eps eg G p srt srt' (d : tset float64 float64) h te same t :
  is_finite p = true /\ B2R p = 0 -> sorts fleb srt -> sorts Rleb srt' ->
  (forall c, (c < ts_dim d)%nat -> srt' (fun i => B2R (ts_X d i c)) (ts_n d) = srt (fun i => ts_X d i c) (ts_n d)) ->
  finite_entries 53 1024 (ts_X d) (ts_n d) (ts_dim d) -> separable 53 1024 prec64_pos prec64_lt p (ts_X d) (ts_n d) (ts_dim d) ->
  let prior := freg_get_prior pa (ts_n d) (ts_dim d) in
  reg64_setting fsum flog fgammaln fpow f2pi pp delta depth prior M el eps eg G d ->
  let dR := reg_exact_set d (fun i c => B2R (ts_X d i c)) in let tau := reg_tau el eps eg G (ts_n d) M prior in
  reg_setting srt' (ng_val prior) h dR -> h_prior h = option_map ng_val pa -> h_prune h = false -> h_delta h = 0 -> h_pp h = B2R pp -> h_prec h = 0 ->
  reg_fit srt' h dR = Ok te -> every_node dR te (clear_node (B2R pp) 0 (ng_logev (ng_val prior)) tau depth dR) ->
  perp_fit (feat_f p srt) (freg_lik fsum flog fgammaln fpow f2pi pp delta) same false 0 pa d = Ok t ->
  (forall l, sum_of l (fsum l)) -> (Z.of_nat (ts_n d + ts_dim d) <= 2 ^ 20)%Z -> tau <= b2 898 -> scores_below te -> splits te <> [] ->
  exists v w, f_feature_importance fsum t = Ok v /\ feature_importance te = Ok (map Some w) /\ importances_close (ts_dim d) tau te v w.
Proof.
  intros H1 H2 H3 H4 H5 H6 prior H7 dR tau K1 K0 K2 K3 K4 K5 Ee Hc E Hsum Hsz Htau Hbd Hne.
  pose proof (reg_same_tree fsum flog fgammaln fpow f2pi pp delta depth pa M el eps eg G p srt srt' d H1 H2 H3 H4 H5 H6 H7 h te same t K1 K0 K2 K3 K4 K5 Ee Hc E) as Hcopy.
  destruct (reg_near fsum flog fgammaln fpow f2pi pp delta depth pa M el eps eg G p srt srt' d H1 H2 H3 H4 H5 H6 H7 same false t E) as [Hnear _].
  rewrite <- K4 in Hc. pose proof (reg_exact_scores srt' _ h dR te tau depth K1 K2 K3 K5 Ee Hc) as Hex. rewrite K4 in Hex.
  pose proof (copy_scores (ts_X d) _ _ _ _ dR te _ t Hcopy Hex Hnear) as HF.
  destruct (fit_splits (feat_f p srt) (freg_lik fsum flog fgammaln fpow f2pi pp delta) lt_trans same false 0 pa d t (fun key m => proj1 (H2 key m)) (gs_set _ _ _ _ _ _ _ _ _ _ _ _ _ _ _ H7) E) as (Hd' & Hl' & Hs').
  apply copy_importance; auto.
  - exact (reg_root_dim srt' _ h dR te K1 Ee).
  - exact (best_split_gain _ _ _ _ _ _ (reg_best_splits srt' _ h dR te K1 Ee)).
  - lia.
Qed.
