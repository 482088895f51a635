(** * Coarse: a smaller partition prior only removes splits. *)
From Coq Require Import Permutation.
From Verif Require Import Prelude Lists Tree Perp RealOps Clf Reg Api Spec PruneProofs OptSpec OptProofs OptFit ClfSpec ClfProofs
  RegSpec RegProofs ApiSpec ApiProofs Hyper HyperProofs CoarseSpec.
Local Open Scope nat_scope.

(** ** Two target sides whose split values differ by [u] and whose no-split values differ by [v >= u], depending on the level only *)
Section Coarse.
Context {A V Y P NM : Type}.
Variables leb gap : A -> A -> bool.
Variable mid : A -> A -> V.
Variables T T' : tgt Y P R.
Variables u v : nat -> R.
Variable X : nat -> nat -> A.
Variable y : nat -> Y.
Variable names : list NM.
Variable n_dim : nat.
Hypothesis Hgt : t_gt T = Rgt.
Hypothesis Hgt' : t_gt T' = Rgt.
Hypothesis Hpr : forall pa n d, t_prior T' pa n d = t_prior T pa n d.
Hypothesis Hpo : forall p ys, t_post T' p ys = t_post T p ys.
Hypothesis Hch : forall p ys, t_child_prior T' p ys = t_child_prior T p ys.
Hypothesis Hma : forall ys, t_many T' ys <-> t_many T ys.
Hypothesis Hst : forall lvl p ys, t_stop T' lvl p ys = (t_stop T lvl p ys + v lvl)%R.
Hypothesis Hcu : forall lvl p n m l r, n <> 0 -> m <> 0 -> t_cut T' lvl p n m l r = (t_cut T lvl p n m l r + u lvl)%R.
Hypothesis Huv : forall lvl, (u lvl <= v lvl)%R.

Lemma cand_shift lvl p rows d a b s : cand leb gap T X y n_dim lvl p rows d a b s ->
  cand leb gap T' X y n_dim lvl p rows d a b (s + u lvl)%R.
Proof.
  intros (Hd & Hc & m & Hm & ->). split; [exact Hd|]. split; [exact Hc|]. exists m. split; [exact Hm|].
  rewrite Hcu; [reflexivity|lia|]. intros ->. destruct Hm as (cs & _ & E & H). apply H in Hc.
  destruct cs; [destruct Hc|discriminate].
Qed.
Lemma cand_shift_inv lvl p rows d a b s' : cand leb gap T' X y n_dim lvl p rows d a b s' ->
  cand leb gap T X y n_dim lvl p rows d a b (s' - u lvl)%R.
Proof.
  intros (Hd & Hc & m & Hm & ->). split; [exact Hd|]. split; [exact Hc|]. exists m. split; [exact Hm|].
  rewrite Hcu; [ring|lia|]. intros ->. destruct Hm as (cs & _ & E & H). apply H in Hc.
  destruct cs; [destruct Hc|discriminate].
Qed.

Lemma opt_coarser :
  (forall lvl pa rows t, opt leb gap mid T X y names n_dim lvl pa rows t ->
     exists t', opt leb gap mid T' X y names n_dim lvl pa rows t' /\ coarser t' t) /\
  (forall lvl p rows t, opt_child leb gap mid T X y names n_dim lvl p rows t ->
     exists t', opt_child leb gap mid T' X y names n_dim lvl p rows t' /\ coarser t' t).
Proof.
  apply opt_mutind.
  - intros lvl pa rows p Hp Hno. exists (Leaf (node_info T y n_dim lvl pa p rows)). split; [|constructor].
    assert (E : node_info T y n_dim lvl pa p rows = node_info T' y n_dim lvl pa p rows) by (unfold node_info; rewrite Hpo; reflexivity).
    rewrite E. apply opt_leaf; [rewrite Hpr; exact Hp|].
    intros d a b s Hc. apply cand_shift_inv, Hno in Hc. rewrite Hgt in Hc. rewrite Hgt', Hst. pose proof (Huv lvl). lra.
  - intros lvl pa rows p d a b s nm c1 c2 Hp Hc Hg Hmax Hnm H1 (c1' & O1 & R1) H2 (c2' & O2 & R2).
    assert (E : node_info T y n_dim lvl pa p rows = node_info T' y n_dim lvl pa p rows) by (unfold node_info; rewrite Hpo; reflexivity).
    assert (Hmax' : forall d' a' b' s', cand leb gap T' X y n_dim lvl p rows d' a' b' s' ->
              ~ t_gt T' s' (s + u lvl)%R /\ (~ t_gt T' (s + u lvl)%R s' -> d < d' \/ d = d' /\ leb a a' = true)).
    { intros d' a' b' s' Hc'. apply cand_shift_inv, Hmax in Hc'. rewrite Hgt in Hc'. rewrite Hgt'.
      destruct Hc' as [M1 M2]. split; [lra|]. intros Hn. apply M2. lra. }
    destruct (Rgt_dec (s + u lvl) (t_stop T' lvl p (map y rows))) as [Hy|Hn].
    + eexists. split.
      * eapply (opt_split leb gap mid T' X y names n_dim lvl pa rows p d a b (s + u lvl)%R nm c1' c2'); auto.
        -- rewrite Hpr. exact Hp.
        -- apply cand_shift. exact Hc.
        -- rewrite Hgt'. exact Hy.
      * rewrite <- E. constructor; assumption.
    + exists (Leaf (node_info T y n_dim lvl pa p rows)). split; [|constructor].
      rewrite E. apply opt_leaf; [rewrite Hpr; exact Hp|].
      intros d' a' b' s' Hc'. destruct (Hmax' _ _ _ _ Hc') as [M _]. rewrite Hgt' in *. lra.
  - intros lvl p rows t Hl Hm Ho (t' & O & Rr). exists t'. split; [|exact Rr].
    apply opt_child_fit; [exact Hl|apply Hma; exact Hm|]. rewrite Hch. exact O.
  - intros lvl p rows Hor. eexists. split; [|apply coarser_leaf].
    rewrite <- Hch, <- Hpo. apply opt_child_leaf. destruct Hor as [H|H]; [left; exact H|right]. rewrite Hma. exact H.
Qed.
End Coarse.

Lemma coarser_info {D S P} (t' t : tree D S P) : coarser t' t -> info t' = info t.
Proof. destruct 1; reflexivity. Qed.
Lemma coarser_size {D S P} (t' t : tree D S P) : coarser t' t ->
  length (leaves t') <= length (leaves t) /\ height t' <= height t /\ incl (map (fun s => fst (fst s)) (splits t')) (map (fun s => fst (fst s)) (splits t)).
Proof.
  assert (L1 : forall x : tree D S P, 1 <= length (leaves x)).
  { induction x as [i0|i0 d0 a0 b0 c1 IH1 c2 IH2]; cbn [leaves length]; [apply le_n|]. rewrite app_length. lia. }
  induction 1 as [i|i d a b c1 c2|i d a b a' b' c1 c2 c1' c2' H1 IH1 H2 IH2]; simpl.
  - repeat split; auto. apply incl_refl.
  - rewrite app_length. pose proof (L1 c1). pose proof (L1 c2). repeat split; try lia. intros x [].
  - rewrite !app_length, !map_app. destruct IH1 as (A1 & B1 & C1), IH2 as (A2 & B2 & C2). repeat split; try lia.
    apply incl_cons; [left; reflexivity|]. apply incl_tl. apply incl_app; [apply incl_appl|apply incl_appr]; assumption.
Qed.

(** Pruning keeps the relation. *)
Lemma coarser_leaf_l {D S P} (t' : tree D S P) i : coarser t' (Leaf i) -> t' = Leaf i.
Proof. inversion 1. reflexivity. Qed.
Lemma prune_coarser {D S P} (same : ninfo P -> ninfo P -> bool) (t' t : tree D S P) : coarser t' t ->
  coarser (prune_bu same t') (prune_bu same t).
Proof.
  induction 1 as [i|i d a b c1 c2|i d a b a' b' c1 c2 c1' c2' H1 IH1 H2 IH2]; cbn [prune_bu].
  - constructor.
  - destruct (prune_bu same c1), (prune_bu same c2); try constructor. destruct (same _ _); constructor.
  - destruct (prune_bu same c1) as [i1|i1 d1 a1 b1 x1 z1].
    + apply coarser_leaf_l in IH1 as ->. destruct (prune_bu same c2) as [i2|i2 d2 a2 b2 x2 z2].
      * apply coarser_leaf_l in IH2 as ->. destruct (same i1 i2); [constructor|]. constructor; constructor.
      * destruct (prune_bu same c2') as [j|? ? ? ? ? ?]; [|constructor; [constructor|exact IH2]].
        destruct (same i1 j); constructor; [constructor|exact IH2].
    + destruct (prune_bu same c1') as [j|? ? ? ? ? ?]; [|constructor; assumption].
      destruct (prune_bu same c2') as [k|? ? ? ? ? ?]; [|constructor; assumption].
      destruct (same j k); constructor; assumption.
Qed.
Lemma prune_flag_coarser {D S P} (same : ninfo P -> ninfo P -> bool) (prn : bool) (t' t : tree D S P) : coarser t' t ->
  coarser (if prn then prune_bu same t' else t') (if prn then prune_bu same t else t).
Proof. destruct prn; [apply prune_coarser|auto]. Qed.

Section Partition.
Variables pp pp' : R.
Hypothesis H0 : (0 < pp')%R.
Hypothesis H1 : (pp' <= pp)%R.
Hypothesis H2 : (pp < 1)%R.
Let u (lvl : nat) : R := (ln (pp' ^ (1 + lvl)) - ln (pp ^ (1 + lvl)))%R.
Let v (lvl : nat) : R := (ln (1 - pp' ^ (1 + lvl)) - ln (1 - pp ^ (1 + lvl)))%R.
Lemma pow_range q n : (0 < q < 1)%R -> (0 < q ^ (1 + n) < 1)%R.
Proof.
  intros Hq. induction n as [|n IH]; [simpl; lra|]. change (q ^ (1 + S n))%R with (q * q ^ (1 + n))%R. nra.
Qed.
Lemma pow_le n : (pp' ^ (1 + n) <= pp ^ (1 + n))%R.
Proof. apply pow_incr. lra. Qed.
Lemma ln_le_mono x z : (0 < x)%R -> (x <= z)%R -> (ln x <= ln z)%R.
Proof. intros Hx [Hl|<-]; [left; apply ln_increasing; assumption|right; reflexivity]. Qed.
Lemma shift_le lvl : (u lvl <= v lvl)%R.
Proof.
  assert (A := pow_range pp lvl ltac:(lra)). assert (B := pow_range pp' lvl ltac:(lra)). assert (C := pow_le lvl).
  unfold u, v. assert (ln (pp' ^ (1 + lvl)) <= ln (pp ^ (1 + lvl)))%R by (apply ln_le_mono; lra).
  assert (ln (1 - pp ^ (1 + lvl)) <= ln (1 - pp' ^ (1 + lvl)))%R by (apply ln_le_mono; lra). lra.
Qed.
Lemma cut_shift lvl n m : n <> 0 -> m <> 0 ->
  (ln (pp' ^ (1 + lvl) / (INR m * INR n)) = ln (pp ^ (1 + lvl) / (INR m * INR n)) + u lvl)%R.
Proof.
  intros Hn Hm. assert (A := pow_range pp lvl ltac:(lra)). assert (B := pow_range pp' lvl ltac:(lra)).
  assert (0 < INR m * INR n)%R. { apply Rmult_lt_0_compat; apply lt_0_INR; lia. }
  unfold u, Rdiv. rewrite !ln_mult by (try apply Rinv_0_lt_compat; lra). lra.
Qed.

Lemma clf_coarser srt k prior h h' d t t' : clf_setting srt k prior h d -> h_pp h = pp ->
  h' = mkHyper pp' (h_prior h) (h_delta h) (h_prune h) (h_prec h) ->
  clf_fit srt h d = Ok t -> clf_fit srt h' d = Ok t' -> coarser t' t.
Proof.
  intros Hs Epp -> Et Et'.
  assert (Hs' : clf_setting srt k prior (mkHyper pp' (h_prior h) (h_delta h) (h_prune h) (h_prec h)) d).
  { destruct Hs as (A1 & (A2 & A3 & A4) & A5). split; [exact A1|]. split; [|exact A5]. split; [|split]; simpl; auto. lra. }
  destruct (clf_fit_opt _ _ _ _ _ Hs) as (x & x0 & Ex & Ox & Ux & _). rewrite Et in Ex. injection Ex as <-.
  destruct (clf_fit_opt _ _ _ _ _ Hs') as (z & z0 & Ez & Oz & Uz & _). rewrite Et' in Ez. injection Ez as <-.
  cbn [h_prune h_pp h_prior h_delta h_prec] in Uz, Oz. rewrite Ux, Uz. apply prune_flag_coarser.
  destruct (proj1 (opt_coarser Rleb (gap_R (h_prec h)) mid_R (clf_tgt (h_pp h) (h_delta h)) (clf_tgt pp' (h_delta h)) u v
              (ts_X d) (ts_y d) (ts_names d) (ts_dim d) eq_refl eq_refl (fun _ _ _ => eq_refl) (fun _ _ => eq_refl) (fun _ _ => eq_refl)
              (fun _ => iff_refl _)
              ltac:(intros lvl p ys; cbn [t_stop clf_tgt]; rewrite Epp; unfold v; lra)
              ltac:(intros lvl p n m l r Hn Hm; cbn [t_cut clf_tgt]; rewrite cut_shift, Epp by assumption; lra)
              shift_le) _ _ _ _ Ox) as (t2 & O2 & C2).
  assert (z0 = t2) as ->; [|exact C2].
  destruct Hs as (A1 & (_ & _ & A4) & _).
  eapply (proj1 (opt_functional Rleb (gap_R (h_prec h)) mid_R (feat_R (h_prec h) srt) (clf_tgt pp' (h_delta h)) (ts_X d) (ts_y d) (ts_names d)
            (feat_R_law _ _ A4 A1) (ts_dim d))); eassumption.
Qed.
Lemma reg_coarser srt prior h h' d t t' : reg_setting srt prior h d -> h_pp h = pp ->
  h' = mkHyper pp' (h_prior h) (h_delta h) (h_prune h) (h_prec h) ->
  reg_fit srt h d = Ok t -> reg_fit srt h' d = Ok t' -> coarser t' t.
Proof.
  intros Hs Epp -> Et Et'.
  assert (Hs' : reg_setting srt prior (mkHyper pp' (h_prior h) (h_delta h) (h_prune h) (h_prec h)) d).
  { destruct Hs as (A1 & (A2 & A3 & A4) & A5). split; [exact A1|]. split; [|exact A5]. split; [|split]; simpl; auto. lra. }
  destruct (reg_fit_opt _ _ _ _ Hs) as (x & x0 & Ex & Ox & Ux & _). rewrite Et in Ex. injection Ex as <-.
  destruct (reg_fit_opt _ _ _ _ Hs') as (z & z0 & Ez & Oz & Uz & _). rewrite Et' in Ez. injection Ez as <-.
  cbn [h_prune h_pp h_prior h_delta h_prec] in Uz, Oz. rewrite Ux, Uz. apply prune_flag_coarser.
  destruct (proj1 (opt_coarser Rleb (gap_R (h_prec h)) mid_R (reg_tgt (h_pp h) (h_delta h)) (reg_tgt pp' (h_delta h)) u v
              (ts_X d) (ts_y d) (ts_names d) (ts_dim d) eq_refl eq_refl (fun _ _ _ => eq_refl) (fun _ _ => eq_refl) (fun _ _ => eq_refl)
              (fun _ => iff_refl _)
              ltac:(intros lvl p ys; cbn [t_stop reg_tgt]; rewrite Epp; unfold v; lra)
              ltac:(intros lvl p n m l r Hn Hm; cbn [t_cut reg_tgt]; rewrite cut_shift, Epp by assumption; lra)
              shift_le) _ _ _ _ Ox) as (t2 & O2 & C2).
  assert (z0 = t2) as ->; [|exact C2].
  destruct Hs as (A1 & (_ & _ & A4) & _).
  eapply (proj1 (opt_functional Rleb (gap_R (h_prec h)) mid_R (feat_R (h_prec h) srt) (reg_tgt pp' (h_delta h)) (ts_X d) (ts_y d) (ts_names d)
            (feat_R_law _ _ A4 A1) (ts_dim d))); eassumption.
Qed.

(** ** Hyperplane trees for fixed candidates *)
Section HyperCoarse.
Context {C P : Type}.
Variable pre : C -> list R.
Variable prec : R.
Variable srt : (nat -> R) -> nat -> list nat.
Variables L L' : lik R P R.
Variable post : R -> P -> list R -> P.
Variable X : nat -> list R.
Variable y : nat -> R.
Variable n_dim : nat.
Hypothesis Hdim : n_dim <> 0.
Hypothesis Hpr : l_prior L' = l_prior L.
Hypothesis Hpo : l_post L' = l_post L.
Hypothesis Hma : l_many L' = l_many L.
Hypothesis Ham : l_argmax L = argmax Rgtb.
Hypothesis Ham' : l_argmax L' = argmax Rgtb.
Hypothesis Hgt : l_gt L = Rgtb.
Hypothesis Hgt' : l_gt L' = Rgtb.
Hypothesis Hge : l_ge L = Rgeb.
Hypothesis Hge' : l_ge L' = Rgeb.
Hypothesis Hst : forall lvl p ys, l_no_split L' lvl p ys = (l_no_split L lvl p ys + v lvl)%R.
Hypothesis Hcu : forall lvl p ys ks, ks <> [] ->
  l_split L' lvl p n_dim ys ks = map (fun s => s + u lvl)%R (l_split L lvl p n_dim ys ks).
Let G := geo_R pre prec srt.
Lemma argmax_shift c l : argmax Rgtb (map (fun s => s + c)%R l) = argmax Rgtb l.
Proof.
  assert (F : forall l1 best ib i, argmax_from Rgtb (best + c)%R ib i (map (fun s => s + c)%R l1) = argmax_from Rgtb best ib i l1).
  { induction l1 as [|s l0 IH]; intros best ib i; [reflexivity|]. cbn [map argmax_from].
    replace (Rgtb (s + c) (best + c))%R with (Rgtb s best).
    - destruct (Rgtb s best); apply IH.
    - destruct (Rgtb s best) eqn:E1; symmetry.
      + apply Rgtb_true. apply Rgtb_true in E1. lra.
      + apply Rgtb_false. apply Rgtb_false in E1. lra. }
  destruct l as [|s l0]; [reflexivity|]. cbn [map argmax]. apply F.
Qed.
Section Node.
Variables (lvl : nat) (prior : P) (rows : list nat) (ns : R).
(** State of the run with [pp] and of the run with [pp']. *)
Let inv (st st' : hopt (list R) (list R) R R) : Prop :=
  (o_plane st' = None /\ o_best st' = (ns + v lvl)%R /\ o_dist st' = 0%R /\ (o_best st + u lvl <= ns + v lvl)%R /\
     (o_best st + u lvl = ns + v lvl -> o_dist st <= 0)%R) \/
  (o_plane st' = o_plane st /\ o_best st' = (o_best st + u lvl)%R /\ o_dist st' = o_dist st).
Lemma compute_inv st st' c : inv st st' ->
  inv (fst (opt_compute G L X y n_dim lvl prior rows ns st c)) (fst (opt_compute G L' X y n_dim lvl prior rows (ns + v lvl)%R st' c)).
Proof.
  intros H. unfold opt_compute. cbn [o_evals o_best o_dist o_plane].
  destruct (split_positions _ _) as [|k0 ks0]; [exact H|]. set (ks := k0 :: ks0).
  set (ys := map _ _). rewrite Hcu by discriminate. rewrite Ham, Ham', argmax_shift, nth_error_map.
  destruct (nth_error (l_split L lvl prior n_dim ys ks) _) as [s|]; [|exact H]. cbn [option_map].
  destruct (nth_error ks _) as [k|]; [|exact H]. rewrite Hge, Hge', Hgt, Hgt'.
  set (org := g_mid G _ _). set (dist := g_dist G _ _ _). change (g_far G) with Rgtb.
  destruct H as [(E1 & E2 & E3 & E4 & E5)|(E1 & E2 & E3)].
  - rewrite E2, E3.
    destruct (Rgeb (s + u lvl) (ns + v lvl)) eqn:A1.
    + apply Rgeb_true in A1. destruct (Rgeb s (o_best st)) eqn:B1; [|apply Rgeb_false in B1; lra].
      destruct (Rgtb (s + u lvl) (ns + v lvl)) eqn:A2.
      * apply Rgtb_true in A2. destruct (Rgtb s (o_best st)) eqn:B2; [|apply Rgtb_false in B2; lra].
        right. cbn. auto.
      * apply Rgtb_false in A2. destruct (Rgtb dist 0) eqn:A3.
        -- apply Rgtb_true in A3. right.
           assert ((if Rgtb s (o_best st) then true else Rgtb dist (o_dist st)) = true) as ->; [|cbn; auto].
           destruct (Rgtb s (o_best st)) eqn:B2; [reflexivity|]. apply Rgtb_false in B2. apply Rgtb_true.
           assert (o_dist st <= 0)%R by (apply E5; lra). lra.
        -- apply Rgtb_false in A3. left. cbn [fst o_plane o_best o_dist].
           destruct (if Rgtb s (o_best st) then true else Rgtb dist (o_dist st)); cbn [fst o_plane o_best o_dist]; repeat split; auto; lra.
    + apply Rgeb_false in A1. left. cbn [fst o_plane o_best o_dist].
      destruct (Rgeb s (o_best st)); [destruct (if Rgtb s (o_best st) then true else Rgtb dist (o_dist st))|];
        cbn [fst o_plane o_best o_dist]; repeat split; auto; lra.
  - rewrite E2, E3. replace (Rgeb (s + u lvl) (o_best st + u lvl)) with (Rgeb s (o_best st)).
    2:{ destruct (Rgeb s (o_best st)) eqn:B; symmetry.
        - apply Rgeb_true. apply Rgeb_true in B. lra.
        - apply Rgeb_false. apply Rgeb_false in B. lra. }
    replace (Rgtb (s + u lvl) (o_best st + u lvl)) with (Rgtb s (o_best st)).
    2:{ destruct (Rgtb s (o_best st)) eqn:B; symmetry.
        - apply Rgtb_true. apply Rgtb_true in B. lra.
        - apply Rgtb_false. apply Rgtb_false in B. lra. }
    right. destruct (Rgeb s (o_best st)); [destruct (if Rgtb s (o_best st) then true else Rgtb dist (o_dist st))|];
      cbn [fst o_plane o_best o_dist]; auto.
Qed.
Lemma run_plane cs :
  let pl := o_plane (opt_run G L X y n_dim lvl prior rows ns cs) in
  let pl' := o_plane (opt_run G L' X y n_dim lvl prior rows (ns + v lvl)%R cs) in
  pl' = None \/ pl' = pl.
Proof.
  assert (H : inv (opt_run G L X y n_dim lvl prior rows ns cs) (opt_run G L' X y n_dim lvl prior rows (ns + v lvl)%R cs)).
  { unfold opt_run.
    assert (H : inv (opt_init G ns) (opt_init G (ns + v lvl)%R)).
    { left. pose proof (shift_le lvl). unfold opt_init. cbn [o_plane o_best o_dist]. repeat split; auto; cbn; lra. }
    revert H. generalize (opt_init G ns) (opt_init G (ns + v lvl)%R).
    induction cs as [|c cs IH]; intros st st' H; [exact H|]. cbn [fold_left]. apply IH. apply compute_inv. exact H. }
  destruct H as [(H & _)|(H & _)]; auto.
Qed.
End Node.
Variable cands : list bool -> list C.
Lemma hfit_coarser fuel : forall lvl path pa rows t t',
  hfit G L post X y n_dim cands fuel lvl path pa rows = Ok t ->
  hfit G L' post X y n_dim cands fuel lvl path pa rows = Ok t' -> coarser t' t.
Proof.
  induction fuel as [|fuel IH]; intros lvl path pa rows t t' E E'; [discriminate|]. cbn [hfit] in E, E'.
  rewrite Hpr, Hpo, Hma, Hst in E'.
  pose proof (run_plane lvl (l_prior L pa (length rows) n_dim) rows (l_no_split L lvl (l_prior L pa (length rows) n_dim) (map y rows)) (cands path)) as Hpl.
  cbv zeta in Hpl.
  set (st := opt_run G L X y n_dim _ _ _ _ _) in *. set (st' := opt_run G L' X y n_dim _ _ _ _ _) in *.
  set (i := mkInfo _ _ _ _ _) in *.
  assert (L0 : forall t : tree (plane (list R) (list R)) R P, (exists d a b c1 c2, t = Split i d a b c1 c2) \/ t = Leaf i -> coarser (Leaf i) t).
  { intros x [(d & a & b & c1 & c2 & ->)| ->]; constructor. }
  destruct (o_plane st') as [pl'|].
  - destruct Hpl as [Hpl|Hpl]; [discriminate|]. rewrite <- Hpl in E. cbv beta zeta in E, E'.
    set (r1 := filter _ rows) in *. set (r2 := filter (fun i0 => g_front _ _ _ _) rows) in *.
    destruct ((0 <? length r1) && (0 <? length r2)); [|injection E as <-; injection E' as <-; constructor].
    assert (Hc : forall b pr rc c c',
        (if (1 <? length rc) && l_many L (map y rc) then hfit G L post X y n_dim cands fuel (lvl + 1) (path ++ [b]) (Some pr) rc
         else Ok (Leaf (mkInfo (Some pr) (lvl + 1) (length rc) None (l_post L (l_prior L pa (length rows) n_dim) (map y rc))))) = Ok c ->
        (if (1 <? length rc) && l_many L (map y rc) then hfit G L' post X y n_dim cands fuel (lvl + 1) (path ++ [b]) (Some pr) rc
         else Ok (Leaf (mkInfo (Some pr) (lvl + 1) (length rc) None (l_post L (l_prior L pa (length rows) n_dim) (map y rc))))) = Ok c' ->
        coarser c' c).
    { intros b pr rc c c'. destruct ((1 <? length rc) && l_many L (map y rc)); [apply IH|]. intros F F'. injection F as <-. injection F' as <-. constructor. }
    match type of E with rbind ?x _ = _ => destruct x as [c1|] eqn:F1; [|discriminate] end.
    match type of E' with rbind ?x _ = _ => destruct x as [c1'|] eqn:F1'; [|discriminate] end.
    cbn [rbind] in E, E'.
    match type of E with rbind ?x _ = _ => destruct x as [c2|] eqn:F2; [|discriminate] end.
    match type of E' with rbind ?x _ = _ => destruct x as [c2'|] eqn:F2'; [|discriminate] end.
    cbn [rbind] in E, E'.
    injection E as <-. injection E' as <-. constructor; eapply Hc; eassumption.
  - injection E' as <-. apply L0. destruct (o_plane st) as [pl|]; [|injection E as <-; auto].
    cbv beta zeta in E. destruct (_ && _) in E; [|injection E as <-; auto].
    match type of E with rbind ?x _ = _ => destruct x as [c1|]; [|discriminate] end. cbn [rbind] in E.
    match type of E with rbind ?x _ = _ => destruct x as [c2|]; [|discriminate] end. cbn [rbind] in E.
    injection E as <-. left. do 5 eexists. reflexivity.
Qed.
End HyperCoarse.

Lemma map2_shift {A B} (f : A -> B -> R) c l : forall l', map2 (fun a b => f a b + c)%R l l' = map (fun s => s + c)%R (map2 f l l').
Proof. induction l as [|a l IH]; intros [|b l']; cbn [map2 map]; [reflexivity..|]. rewrite IH. reflexivity. Qed.
Lemma map2_ext {A B D} (f g : A -> B -> D) l : (forall a b, f a b = g a b) -> forall l', map2 f l l' = map2 g l l'.
Proof. intros H. induction l as [|a l IH]; intros [|b l']; cbn [map2]; [reflexivity..|]. rewrite H, IH. reflexivity. Qed.
Lemma hclf_coarser {C} (preC : C -> list R) srt cands h h' d t t' : hs_dim d <> 0 -> h_pp h = pp ->
  h' = mkHyper pp' (h_prior h) (h_delta h) (h_prune h) (h_prec h) ->
  hclf_fit preC srt cands h d = Ok t -> hclf_fit preC srt cands h' d = Ok t' -> coarser t' t.
Proof.
  intros Hd Epp -> Et Et'. unfold hclf_fit, hyper_fit in Et, Et'. cbn [h_prune h_pp h_prior h_delta h_prec] in Et'.
  destruct (hfit _ _ _ _ _ _ _ _ _ _ _) as [t0|] eqn:E0 in Et; [|discriminate].
  destruct (hfit _ _ _ _ _ _ _ _ _ _ _) as [t0'|] eqn:E0' in Et'; [|discriminate].
  assert (Hc : coarser t0' t0).
  { eapply (hfit_coarser preC (h_prec h) srt (clf_lik (h_pp h) (h_delta h)) (clf_lik pp' (h_delta h))); try eassumption; try reflexivity.
    - intros lvl p ys. cbn [l_no_split clf_lik]. unfold clf_no_split. rewrite Epp. unfold v. lra.
    - intros lvl p ys ks Hks. cbn [l_split clf_lik]. unfold clf_split. rewrite <- map2_shift. apply map2_ext. intros a b.
      rewrite cut_shift, Epp; [lra|exact Hd|destruct ks; [congruence|discriminate]]. }
  cbn [rbind] in Et, Et'. destruct (h_prune h).
  - rewrite prune_correct in Et, Et'. injection Et as <-. injection Et' as <-. apply prune_coarser. exact Hc.
  - injection Et as <-. injection Et' as <-. exact Hc.
Qed.
Lemma hreg_coarser {C} (preC : C -> list R) srt cands h h' d t t' : hs_dim d <> 0 -> h_pp h = pp ->
  h' = mkHyper pp' (h_prior h) (h_delta h) (h_prune h) (h_prec h) ->
  hreg_fit preC srt cands h d = Ok t -> hreg_fit preC srt cands h' d = Ok t' -> coarser t' t.
Proof.
  intros Hd Epp -> Et Et'. unfold hreg_fit, hyper_fit in Et, Et'. cbn [h_prune h_pp h_prior h_delta h_prec] in Et'.
  destruct (hfit _ _ _ _ _ _ _ _ _ _ _) as [t0|] eqn:E0 in Et; [|discriminate].
  destruct (hfit _ _ _ _ _ _ _ _ _ _ _) as [t0'|] eqn:E0' in Et'; [|discriminate].
  assert (Hc : coarser t0' t0).
  { eapply (hfit_coarser preC (h_prec h) srt (reg_lik (h_pp h) (h_delta h)) (reg_lik pp' (h_delta h))); try eassumption; try reflexivity.
    - intros lvl p ys. cbn [l_no_split reg_lik]. unfold reg_no_split. rewrite Epp. unfold v. lra.
    - intros lvl p ys ks Hks. cbn [l_split reg_lik]. unfold reg_split. rewrite <- map2_shift. apply map2_ext. intros a b.
      rewrite cut_shift, Epp; [lra|exact Hd|destruct ks; [congruence|discriminate]]. }
  cbn [rbind] in Et, Et'. destruct (h_prune h).
  - rewrite prune_correct in Et, Et'. injection Et as <-. injection Et' as <-. apply prune_coarser. exact Hc.
  - injection Et as <-. injection Et' as <-. exact Hc.
Qed.
End Partition.

(** The statements without the auxiliary section variables. *)
Lemma clf_pp_coarser srt k prior h pp' d t t' : clf_setting srt k prior h d -> (0 < pp' <= h_pp h)%R ->
  clf_fit srt h d = Ok t -> clf_fit srt (mkHyper pp' (h_prior h) (h_delta h) (h_prune h) (h_prec h)) d = Ok t' -> coarser t' t.
Proof.
  intros Hs Hp E E'. pose proof Hs as (_ & (Hpp & _) & _).
  eapply (clf_coarser (h_pp h) pp'); [lra|lra|lra|exact Hs|reflexivity|reflexivity|exact E|exact E'].
Qed.
Lemma reg_pp_coarser srt prior h pp' d t t' : reg_setting srt prior h d -> (0 < pp' <= h_pp h)%R ->
  reg_fit srt h d = Ok t -> reg_fit srt (mkHyper pp' (h_prior h) (h_delta h) (h_prune h) (h_prec h)) d = Ok t' -> coarser t' t.
Proof.
  intros Hs Hp E E'. pose proof Hs as (_ & (Hpp & _) & _).
  eapply (reg_coarser (h_pp h) pp'); [lra|lra|lra|exact Hs|reflexivity|reflexivity|exact E|exact E'].
Qed.
Lemma hclf_pp_coarser {C} (pre : C -> list R) srt cands h pp' d t t' : hs_dim d <> 0 -> (0 < pp' <= h_pp h)%R -> (h_pp h < 1)%R ->
  hclf_fit pre srt cands h d = Ok t -> hclf_fit pre srt cands (mkHyper pp' (h_prior h) (h_delta h) (h_prune h) (h_prec h)) d = Ok t' -> coarser t' t.
Proof.
  intros Hd Hp Hpp E E'. eapply (hclf_coarser (h_pp h) pp'); [lra|lra|lra|exact Hd|reflexivity|reflexivity|exact E|exact E'].
Qed.
Lemma hreg_pp_coarser {C} (pre : C -> list R) srt cands h pp' d t t' : hs_dim d <> 0 -> (0 < pp' <= h_pp h)%R -> (h_pp h < 1)%R ->
  hreg_fit pre srt cands h d = Ok t -> hreg_fit pre srt cands (mkHyper pp' (h_prior h) (h_delta h) (h_prune h) (h_prec h)) d = Ok t' -> coarser t' t.
Proof.
  intros Hd Hp Hpp E E'. eapply (hreg_coarser (h_pp h) pp'); [lra|lra|lra|exact Hd|reflexivity|reflexivity|exact E|exact E'].
Qed.
