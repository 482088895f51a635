(** * OppositeProofs: a direction and its opposite (C79). *)
From Coq Require Import Reals Lra Permutation Sorted.
From Verif Require Import Prelude Lists Tree Perp RealOps Clf Reg Api Hyper Spec OptSpec OptProofs ClfSpec RegSpec ApiSpec HyperSpec ClfProofs RegProofs ApiProofs SplitFacts HyperOpt HyperDist
  HyperApi HyperLemmas Sphere SphereProofs Optim OptimLemmas SimilarSpec SimilarProofs.
Local Open Scope R_scope.

Definition opposite (c : list R) : list R := map Ropp c.
Lemma dot_opposite x : forall n, dot x (opposite n) = - dot x n.
Proof. unfold dot, opposite, vsum. induction x as [|a x IH]; intros [|b n]; cbn; try lra. rewrite IH. lra. Qed.
Lemma unit_opposite c : (exists j, nth j c 0 <> 0) -> unit_vec (opposite c) = opposite (unit_vec c).
Proof.
  intros H. apply (unit_turn opposite (length c)); auto. split; [|split].
  - intros x Hx. unfold opposite. now rewrite map_length.
  - intros x z _ _. rewrite dot_opposite, dot_comm, dot_opposite, dot_comm. lra.
  - intros a b x z _ _. unfold opposite, combine_with. revert z. induction x as [|p x IH]; intros [|q z]; cbn; auto. rewrite IH. f_equal. lra.
Qed.
Lemma sorted_rev {B} (Q : B -> B -> Prop) l : StronglySorted Q l -> StronglySorted (fun a b => Q b a) (rev l).
Proof.
  induction 1 as [|a l Hl IH Hf]; cbn; [constructor|].
  assert (G : forall m, StronglySorted (fun a b => Q b a) m -> Forall (Q a) m -> StronglySorted (fun a b => Q b a) (m ++ [a])).
  { clear. induction m as [|b m IH]; intros Hm Hf; cbn; [repeat constructor|]. inversion Hm; subst. inversion Hf; subst. constructor; auto.
    apply Forall_app. split; auto. }
  apply G; auto. apply Forall_forall. intros b Hb. apply in_rev in Hb. rewrite Forall_forall in Hf. auto.
Qed.

Section Node.
Context {P : Type}.
Variables (prec : R) (srt : (nat -> R) -> nat -> list nat) (L : lik R P R) (T : tgt R P R) (Pok : P -> Prop) (Yok : R -> Prop).
Hypothesis Hprec : 0 <= prec.
Hypothesis law : lik_law L T Pok Yok.
Hypothesis Hgt : l_gt L = Rgtb.
Hypothesis Hge : l_ge L = Rgeb.
Hypothesis Hperm : tgt_perm T.
Hypothesis Hsym : forall lvl p n m l r, t_cut T lvl p n m l r = t_cut T lvl p n m r l.
Hypothesis Hsrt : sorts Rleb srt.
Variables (X : nat -> list R) (y : nat -> R) (n_dim lvl : nat) (prior : P) (rows : list nat) (ns : R).
Hypothesis Hdim : n_dim <> 0%nat.
Hypothesis Hprior : Pok prior.
Hypothesis Hyok : forall i, In i rows -> Yok (y i).
Hypothesis Hnd : NoDup rows.

Lemma spread_opposite u : spread prec X u rows -> spread prec X (opposite u) rows.
Proof.
  intros H i j Hi Hj Hij. rewrite !dot_opposite. replace (- dot (X i) u - - dot (X j) u) with (- (dot (X i) u - dot (X j) u)) by ring.
  rewrite Rabs_Ropp. apply H; auto.
Qed.
Lemma sorted_opposite u : spread prec X u rows -> sorted_rows srt X rows (opposite u) = rev (sorted_rows srt X rows u).
Proof.
  intros H. apply (sorted_perm_eq (fun i => dot (X i) (opposite u))).
  - rewrite <- Permutation_rev. rewrite !srows_permutation; auto.
  - apply (srows_strict prec); auto. apply spread_opposite, H.
  - pose proof (sorted_rev _ _ (srows_strict prec Hprec srt Hsrt X rows Hnd u H)) as G.
    eapply ssorted_strengthen; [|exact G|].
    + eapply Permutation_NoDup; [|exact Hnd]. rewrite <- Permutation_rev. symmetry. apply srows_permutation; auto.
    + cbv beta. intros a b _ _ _ Hlt. rewrite !dot_opposite. lra.
Qed.
Notation value := (fun l r m => t_cut T lvl prior n_dim m l r).
Lemma cut_opposite u m k : spread prec X u rows -> (k <= length rows)%nat ->
  cut_value srt value X y rows (opposite u) m k = cut_value srt value X y rows u m (length rows - k).
Proof.
  intros H Hk. unfold cut_value. rewrite sorted_opposite by auto.
  assert (El : length (sorted_rows srt X rows u) = length rows) by (apply Permutation_length, srows_permutation; auto).
  rewrite firstn_rev, skipn_rev, El. rewrite (Hsym lvl prior n_dim m).
  apply (tp_cut _ Hperm); apply Permutation_map; rewrite <- Permutation_rev; reflexivity.
Qed.
Lemma outcome_opposite u v d pl v' d' pl' : spread prec X u rows ->
  outcome prec srt value X y rows u v d pl -> outcome prec srt value X y rows (opposite u) v' d' pl' -> v' = v.
Proof.
  intros H (m & k & Hm & Hk & Ev & Hb & _) (m' & k' & Hm' & Hk' & Ev' & Hb' & _). pose proof (spread_opposite u H) as H'.
  apply (n_candidates_all prec X rows Hnd u H) in Hm. apply (n_candidates_all prec X rows Hnd _ H') in Hm'.
  assert (Hc : forall j, (1 <= j < length rows)%nat -> candidate prec X rows u j) by (intros; now apply candidate_all).
  assert (Hc' : forall j, (1 <= j < length rows)%nat -> candidate prec X rows (opposite u) j) by (intros; now apply candidate_all).
  apply candidate_all in Hk; auto. apply candidate_all in Hk'; auto.
  assert (v' <= v).
  { rewrite Ev', cut_opposite by (auto; lia). rewrite Hm', <- Hm. apply Hb, Hc. lia. }
  assert (v <= v').
  { replace k with (length rows - (length rows - k))%nat in Ev by lia. rewrite <- cut_opposite in Ev by (auto; lia).
    rewrite Ev, Hm, <- Hm'. apply Hb', Hc'. lia. }
  lra.
Qed.
Lemma value_opposite c : spread prec X (unit_vec c) rows -> (exists j, nth j c 0 <> 0) ->
  vector_value L prec srt X y n_dim lvl prior rows ns (opposite c) = vector_value L prec srt X y n_dim lvl prior rows ns c.
Proof.
  intros H Hc. unfold vector_value. f_equal. set (G := geo_R _ _ _).
  pose proof (compute_cases (fun c => c) prec srt L T Pok Yok law Hgt Hge (sorts_permutes srt Hsrt) X y n_dim Hdim lvl prior Hprior rows Hyok ns (opt_init G ns)) as Hcase.
  pose proof (spread_opposite _ H) as H'. pose proof (unit_opposite c Hc) as Eu.
  destruct (Hcase c) as [[Hno E]|(v & d & pl & s & Ho & E & _)], (Hcase (opposite c)) as [[Hno' E']|(v' & d' & pl' & s' & Ho' & E' & _)];
    fold G in E, E'; rewrite E, E'; cbn [snd]; auto; cbv beta in *.
  - exfalso. destruct Ho' as (m & k & _ & Hk & _). rewrite Eu in Hk. apply candidate_all in Hk; auto. apply (Hno k). now apply candidate_all.
  - exfalso. destruct Ho as (m & k & _ & Hk & _). apply candidate_all in Hk; auto. apply (Hno' k). rewrite Eu. now apply candidate_all.
  - rewrite Eu in Ho'. exact (outcome_opposite (unit_vec c) v d pl v' d' pl' H Ho Ho').
Qed.
Lemma value_unit c c' : unit_vec c' = unit_vec c ->
  vector_value L prec srt X y n_dim lvl prior rows ns c' = vector_value L prec srt X y n_dim lvl prior rows ns c.
Proof.
  intros E. unfold vector_value, opt_compute. set (G := geo_R _ _ _). change (g_unit G c') with (unit_vec c'). change (g_unit G c) with (unit_vec c). now rewrite E.
Qed.
(** Some point of the search space stands for every direction. *)
Lemma cube_reaches c : spread prec X (unit_vec c) rows -> (2 <= length c)%nat -> (exists j, nth j c 0 <> 0) ->
  exists U, Forall (fun u => 0 <= u <= 1) U /\ (1 + length U = length c)%nat /\
    cube_obj L prec srt X y n_dim lvl prior rows ns U = Ok (vector_value L prec srt X y n_dim lvl prior rows ns c).
Proof.
  intros H Hl Hc. destruct (unit_vec_unit c) as [El Ed]; [intros ->; cbn in Hl; lia|]. set (w := unit_vec c) in *.
  assert (Hsq : forall z, vsum (map (fun a => a ^ 2) z) = dot z z).
  { unfold dot, vsum. induction z as [|a z IH]; auto. cbn [map map2 fold_right]. rewrite IH. ring. }
  assert (Hw : exists j, nth j w 0 <> 0).
  { destruct (forallb (fun a => Reqb a 0) w) eqn:Ez.
    - exfalso. assert (dot w w = 0); [|lra]. clear - Ez. unfold dot, vsum. induction w as [|a z IH]; cbn in *; auto.
      apply andb_true_iff in Ez as [E1 E2]. apply Reqb_true in E1. subst a. rewrite IH by auto. lra.
    - clear - Ez. induction w as [|a z IH]; cbn in Ez; [discriminate|]. apply andb_false_iff in Ez as [E|E].
      + exists 0%nat. cbn. intros ->. unfold Reqb in E. destruct (Req_EM_T 0 0); [discriminate|lra].
      + destruct (IH E) as [j Hj]. exists (S j). exact Hj. }
  assert (Huu : forall z, length z = length c -> vsum (map (fun a => a ^ 2) z) = 1 -> 0 <= nth 0 z 0 ->
    exists U, Forall (fun u => 0 <= u <= 1) U /\ (1 + length U = length c)%nat /\ sphere true U = Ok z /\ unit_vec z = z).
  { intros z Hz H1 H0. destruct (sphere_reaches true z) as (U & HU & HL & E); auto; [lia|]. exists U. split; auto. split; [lia|]. split; auto.
    destruct (sphere_unit true U HU) as (_ & z' & E' & _ & _ & _ & Ez); [intros ->; cbn in HL; lia|]. congruence. }
  assert (Hww : unit_vec w = w).
  { destruct (Rle_dec 0 (nth 0 w 0)) as [H0|H0].
    - destruct (Huu w) as (_ & _ & _ & _ & E); auto. rewrite Hsq. exact Ed.
    - destruct (Huu (opposite w)) as (_ & _ & _ & _ & E); auto.
      + unfold opposite. now rewrite map_length.
      + rewrite Hsq, dot_opposite, dot_comm, dot_opposite. lra.
      + unfold opposite. destruct w; cbn in *; lra.
      + rewrite unit_opposite in E by auto. unfold opposite in E. apply (f_equal (map Ropp)) in E. rewrite !map_map in E.
        rewrite (map_ext _ (fun a => a)), map_id in E by (intros; lra). rewrite (map_ext _ (fun a => a)), map_id in E by (intros; lra). exact E. }
  destruct (Rle_dec 0 (nth 0 w 0)) as [H0|H0].
  - destruct (Huu w) as (U & HU & HL & E & _); auto; [rewrite Hsq; exact Ed|]. exists U. split; auto. split; auto.
    unfold cube_obj. rewrite E. cbn. f_equal. apply value_unit. exact Hww.
  - destruct (Huu (opposite w)) as (U & HU & HL & E & _); auto.
    + unfold opposite. now rewrite map_length.
    + rewrite Hsq, dot_opposite, dot_comm, dot_opposite. lra.
    + unfold opposite. destruct w; cbn in *; lra.
    + exists U. split; auto. split; auto. unfold cube_obj. rewrite E. cbn. f_equal. rewrite value_opposite; auto; [|rewrite Hww; exact H].
      apply value_unit. exact Hww.
Qed.
End Node.

Lemma scored_sym {P} (T : tgt R P R) pp ev : scored T pp ev -> forall lvl p n m l r, t_cut T lvl p n m l r = t_cut T lvl p n m r l.
Proof. intros (_ & _ & H) lvl p n m l r. rewrite !H. lra. Qed.
Section Instances.
Variables (prec : R) (srt : (nat -> R) -> nat -> list nat) (pp delta : R) (X : nat -> list R) (y : nat -> R) (n_dim lvl : nat) (rows : list nat) (ns : R) (c : list R).
Lemma clf_opposite k prior : sorts Rleb srt -> 0 <= prec -> n_dim <> 0%nat -> clf_pok k prior -> (forall i, In i rows -> clf_yok k (y i)) -> NoDup rows ->
  spread prec X (unit_vec c) rows -> (exists j, nth j c 0 <> 0) ->
  vector_value (clf_lik pp delta) prec srt X y n_dim lvl prior rows ns (map Ropp c) = vector_value (clf_lik pp delta) prec srt X y n_dim lvl prior rows ns c.
Proof.
  intros Hs Hp Hn Hpr Hy Hnd Hsp Hc.
  exact (value_opposite prec srt (clf_lik pp 0) (clf_tgt pp 0) (clf_pok k) (clf_yok k) Hp (clf_law k pp 0 (Rle_refl 0)) eq_refl eq_refl (clf_tgt_perm _ _)
    (scored_sym _ _ _ (clf_scored _ _)) Hs X y n_dim lvl prior rows ns Hn Hpr Hy Hnd c Hsp Hc).
Qed.
Lemma reg_opposite prior : sorts Rleb srt -> 0 <= prec -> n_dim <> 0%nat -> reg_pok prior -> NoDup rows ->
  spread prec X (unit_vec c) rows -> (exists j, nth j c 0 <> 0) ->
  vector_value (reg_lik pp delta) prec srt X y n_dim lvl prior rows ns (map Ropp c) = vector_value (reg_lik pp delta) prec srt X y n_dim lvl prior rows ns c.
Proof.
  intros Hs Hp Hn Hpr Hnd Hsp Hc.
  exact (value_opposite prec srt (reg_lik pp 0) (reg_tgt pp 0) reg_pok (fun _ => True) Hp (reg_law pp 0 (Rle_refl 0)) eq_refl eq_refl (reg_tgt_perm _ _)
    (scored_sym _ _ _ (reg_scored _ _)) Hs X y n_dim lvl prior rows ns Hn Hpr (fun _ _ => I) Hnd c Hsp Hc).
Qed.
Lemma clf_half_sphere k prior : sorts Rleb srt -> 0 <= prec -> n_dim <> 0%nat -> clf_pok k prior -> (forall i, In i rows -> clf_yok k (y i)) -> NoDup rows ->
  spread prec X (unit_vec c) rows -> (2 <= length c)%nat -> (exists j, nth j c 0 <> 0) ->
  exists U, Forall (fun u => 0 <= u <= 1) U /\ (1 + length U = length c)%nat /\
    cube_obj (clf_lik pp delta) prec srt X y n_dim lvl prior rows ns U = Ok (vector_value (clf_lik pp delta) prec srt X y n_dim lvl prior rows ns c).
Proof.
  intros Hs Hp Hn Hpr Hy Hnd Hsp Hl Hc.
  exact (cube_reaches prec srt (clf_lik pp 0) (clf_tgt pp 0) (clf_pok k) (clf_yok k) Hp (clf_law k pp 0 (Rle_refl 0)) eq_refl eq_refl (clf_tgt_perm _ _)
    (scored_sym _ _ _ (clf_scored _ _)) Hs X y n_dim lvl prior rows ns Hn Hpr Hy Hnd c Hsp Hl Hc).
Qed.
Lemma reg_half_sphere prior : sorts Rleb srt -> 0 <= prec -> n_dim <> 0%nat -> reg_pok prior -> NoDup rows ->
  spread prec X (unit_vec c) rows -> (2 <= length c)%nat -> (exists j, nth j c 0 <> 0) ->
  exists U, Forall (fun u => 0 <= u <= 1) U /\ (1 + length U = length c)%nat /\
    cube_obj (reg_lik pp delta) prec srt X y n_dim lvl prior rows ns U = Ok (vector_value (reg_lik pp delta) prec srt X y n_dim lvl prior rows ns c).
Proof.
  intros Hs Hp Hn Hpr Hnd Hsp Hl Hc.
  exact (cube_reaches prec srt (reg_lik pp 0) (reg_tgt pp 0) reg_pok (fun _ => True) Hp (reg_law pp 0 (Rle_refl 0)) eq_refl eq_refl (reg_tgt_perm _ _)
    (scored_sym _ _ _ (reg_scored _ _)) Hs X y n_dim lvl prior rows ns Hn Hpr (fun _ _ => I) Hnd c Hsp Hl Hc).
Qed.
End Instances.
