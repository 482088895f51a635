(** * HyperOpt: the hyperplane objective over exact reals (C34, C36, C37). *)
From Coq Require Import Reals Permutation Sorted.
From Verif Require Import Prelude Lists Tree Perp RealOps Clf Reg Api Hyper Spec FitProofs OptSpec OptProofs ClfSpec RegSpec ApiSpec
  HyperSpec ClfProofs RegProofs.
Local Open Scope nat_scope.

Lemma split_positions_sorted {A} (gap : A -> A -> bool) l : StronglySorted lt (split_positions gap l).
Proof.
  unfold split_positions, np_where.
  pose proof (where_from_sorted 0 (adjacent gap l)) as H.
  induction H as [|k ks Hl IH Hf]; simpl; constructor; auto.
  rewrite Forall_map. eapply Forall_impl; [|exact Hf]. simpl. intros; lia.
Qed.
Lemma sorted_NoDup l : StronglySorted lt l -> NoDup l.
Proof.
  induction 1 as [|x l Hl IH Hf]; constructor; auto. intros H. rewrite Forall_forall in Hf. apply Hf in H. lia.
Qed.
Lemma NoDup_same_length {A} (l m : list A) : NoDup l -> NoDup m -> (forall x, In x l <-> In x m) -> length l = length m.
Proof. intros Hl Hm H. apply Permutation_length. apply NoDup_Permutation; auto. Qed.

Section Objective.
Context {C P : Type}.
Variable pre : C -> list R.
Variable prec : R.
Variable srt : (nat -> R) -> nat -> list nat.
Variable L : lik R P R.
Variable T : tgt R P R.
Variable Pok : P -> Prop.
Variable Yok : R -> Prop.
Hypothesis law : lik_law L T Pok Yok.
Hypothesis Hgt : l_gt L = Rgtb.
Hypothesis Hge : l_ge L = Rgeb.
Hypothesis Hsrt : permutes srt.
Variable X : nat -> list R.
Variable y : nat -> R.
Variable n_dim : nat.
Hypothesis Hdim : n_dim <> 0.
Variable lvl : nat.
Variable prior : P.
Hypothesis Hprior : Pok prior.
Variable rows : list nat.
Hypothesis Hyok : forall i, In i rows -> Yok (y i).
Variable ns : R.

Notation G := (geo_R pre prec srt).
Notation value := (fun l r m => t_cut T lvl prior n_dim m l r).
Notation cand := (candidate prec X rows).
Notation outc := (outcome prec srt value X y rows).
Notation cutv := (cut_value srt value X y rows).
Notation srows := (sorted_rows srt X rows).
Notation compute := (opt_compute G L X y n_dim lvl prior rows ns).
Notation nrm c := (unit_vec (pre c)).
Notation st := (hopt (list R) (list R) R R).

Definition positions (v : list R) : list nat := split_positions (fun a b => Rgtb (Rabs (b - a)) prec) (map (fun i => dot (X i) v) rows).

Lemma positions_candidate v k : In k (positions v) <-> cand v k.
Proof.
  unfold positions. rewrite split_positions_In. unfold candidate. split.
  - intros (a & b & Hk & Ea & Eb & Hg).
    rewrite nth_error_map in Ea, Eb.
    destruct (nth_error rows (k - 1)) as [i|] eqn:Ei; [|discriminate].
    destruct (nth_error rows k) as [j|] eqn:Ej; [|discriminate].
    simpl in Ea, Eb. injection Ea as <-. injection Eb as <-.
    rewrite (nth_error_nth _ _ _ Ei), (nth_error_nth _ _ _ Ej). apply Rgtb_true in Hg.
    assert (k < length rows) by (apply nth_error_Some; congruence). auto.
  - intros ([H1 H2] & Hg). do 2 eexists. split; [auto|]. rewrite !nth_error_map.
    rewrite (nth_error_nth' rows 0 (n := k)) by lia. rewrite (nth_error_nth' rows 0 (n := k - 1)) by lia.
    simpl. repeat split; eauto. apply Rgtb_true. auto.
Qed.
Lemma positions_n v : n_candidates prec X rows v (length (positions v)).
Proof.
  exists (positions v). split; [apply sorted_NoDup, split_positions_sorted|]. split; auto. apply positions_candidate.
Qed.
Lemma n_candidates_unique v m m' : n_candidates prec X rows v m -> n_candidates prec X rows v m' -> m = m'.
Proof.
  intros (ks & H1 & <- & H2) (ks' & H1' & <- & H2'). apply NoDup_same_length; auto. intros x. rewrite H2, H2'. tauto.
Qed.

Lemma outcome_det v s d pl s' d' pl' : outc v s d pl -> outc v s' d' pl' -> s = s' /\ d = d' /\ pl = pl'.
Proof.
  intros (m & k & Hm & Hk & Ev & Hb & En & Eo & Ed) (m' & k' & Hm' & Hk' & Ev' & Hb' & En' & Eo' & Ed').
  assert (Em : m = m') by (eapply n_candidates_unique; eauto). subst m'.
  assert (Es : s = s').
  { apply Rle_antisym.
    - rewrite Ev. apply Hb'. auto.
    - rewrite Ev'. apply Hb. auto. }
  subst s'.
  assert (Ek : k = k').
  { destruct (Nat.lt_trichotomy k k') as [H|[H|H]]; auto.
    - destruct (Hb' k Hk) as [_ H']. specialize (H' H). lra.
    - destruct (Hb k' Hk') as [_ H']. specialize (H' H). lra. }
  subst k'. destruct pl as [n o], pl' as [n' o']. simpl in *. subst. auto.
Qed.

(** Effect of one evaluation. *)
Definition bump_evals (s : st) : st := mkOpt (1 + o_evals s) (o_best s) (o_dist s) (o_plane s).
Definition accept (s : st) (v d : R) (pl : plane (list R) (list R)) : Prop :=
  (v > o_best s)%R \/ (v = o_best s /\ d > o_dist s)%R.
Definition effect (s s' : st) (v d : R) (pl : plane (list R) (list R)) : Prop :=
  (accept s v d pl /\ s' = mkOpt (1 + o_evals s) v d (Some pl)) \/ (~ accept s v d pl /\ s' = bump_evals s).


Lemma map_nth_seq_nat (l : list nat) : map (fun j => nth j l 0) (seq 0 (length l)) = l.
Proof.
  induction l as [|x l IH]; simpl; auto. f_equal. rewrite <- seq_shift, map_map. exact IH.
Qed.
Lemma srows_perm v : Permutation (srows v) rows.
Proof.
  unfold sorted_rows. eapply Permutation_trans; [apply Permutation_map; apply Hsrt|].
  rewrite map_nth_seq_nat. apply Permutation_refl.
Qed.

Lemma compute_cases s c :
  ((forall k, ~ cand (nrm c) k) /\ compute s c = (bump_evals s, ns)) \/
  exists v d pl s', outc (nrm c) v d pl /\ compute s c = (s', v) /\ effect s s' v d pl.
Proof.
  unfold opt_compute. change (g_unit G c) with (nrm c). set (v := nrm c).
  change (split_positions (g_gap G) (map (fun i => g_proj G (X i) v) rows)) with (positions v).
  change (g_argsort G (fun k => g_proj G (X (nth k rows 0)) v) (length rows)) with (srt (fun k => dot (X (nth k rows 0)) v) (length rows)).
  set (order := srt (fun k => dot (X (nth k rows 0)) v) (length rows)).
  assert (Eys : map (fun k => y (nth k rows 0)) order = map y (srows v)) by (unfold sorted_rows; rewrite map_map; reflexivity).
  rewrite Eys.
  destruct (positions v) as [|k0 ks0] eqn:Ep.
  - left. split; [|reflexivity]. intros k Hk. apply positions_candidate in Hk. rewrite Ep in Hk. inversion Hk.
  - right. rewrite <- Ep.
    set (ks := positions v). set (log_p := l_split L lvl prior n_dim (map y (srows v)) ks).
    assert (Hlen : length (srows v) = length rows) by (apply Permutation_length, srows_perm).
    assert (Elog : log_p = map (fun k => cutv v (length ks) k) ks).
    { unfold log_p. rewrite (ll_split _ _ _ _ law); auto.
      - apply map_ext. intros k. unfold cut_value. rewrite firstn_map, skipn_map. reflexivity.
      - apply Forall_forall. intros z Hz. apply in_map_iff in Hz as (i & <- & Hi). apply Hyok.
        apply Permutation_in with (l := srows v); auto. apply srows_perm.
      - apply split_positions_sorted.
      - intros k Hk. rewrite map_length, Hlen. apply positions_candidate in Hk. apply Hk. }
    assert (Hne : log_p <> []) by (rewrite Elog; unfold ks; rewrite Ep; discriminate).
    rewrite (ll_argmax _ _ _ _ law), Hgt.
    destruct (argmax_spec Rgtb Rgtb_irrefl Rgtb_trans Rgtb_ntrans log_p Hne) as (sc & Esc & Hmax).
    set (im := argmax Rgtb log_p) in *. rewrite Esc.
    assert (Eim := Esc). rewrite Elog, nth_error_map in Eim.
    destruct (nth_error ks im) as [k|] eqn:Ek; [|discriminate]. simpl in Eim. injection Eim as Eim.
    assert (Hk : cand v k) by (apply positions_candidate; eapply nth_error_In; eauto).
    set (pl := mkPlane v (map2 (fun a b => (a + b) / 2)%R (X (nth (k - 1) (srows v) 0)) (X (nth k (srows v) 0)))).
    set (d := vsum (map (fun i => Rabs (dot (X i) v - dot v (p_origin pl))) rows)).
    assert (Ho : forall j, j < length rows -> nth j (srows v) 0 = nth (nth j order 0) rows 0).
    { intros j Hj. unfold sorted_rows. fold order.
      rewrite (nth_indep _ 0 (nth 0 rows 0)); [apply (map_nth (fun j => nth j rows 0) order 0 j)|].
      rewrite map_length. unfold order. rewrite (Permutation_length (Hsrt _ _)), seq_length. auto. }
    assert (Eorg : g_mid G (X (nth (nth (k - 1) order 0) rows 0)) (X (nth (nth k order 0) rows 0)) = p_origin pl).
    { destruct Hk as [Hk _]. cbn [g_mid geo_R p_origin pl]. rewrite !Ho by lia.
      clear. generalize (X (nth (nth (k - 1) order 0) rows 0)) (X (nth (nth k order 0) rows 0)).
      induction l as [|a l IH]; intros [|b m]; simpl; auto. f_equal; [lra|]. apply IH. }
    rewrite Eorg.
    assert (Ed : g_dist G v (p_origin pl) (map (fun i => g_proj G (X i) v) rows) = d).
    { cbn [g_dist g_proj geo_R]. unfold d. rewrite map_map. reflexivity. }
    rewrite Ed.
    exists sc, d, pl.
    assert (Hout : outc v sc d pl).
    { exists (length ks), k. split; [apply positions_n|]. split; [exact Hk|]. split; [auto|]. split; [|repeat split; auto].
      intros k' Hk'. apply positions_candidate in Hk'. apply In_nth_error in Hk' as (j & Ej). fold ks in Ej.
      assert (El : nth_error log_p j = Some (cutv v (length ks) k')) by (rewrite Elog, nth_error_map, Ej; reflexivity).
      destruct (Hmax _ _ El) as [M1 M2]. apply Rgtb_false in M1. split; [exact M1|].
      intros Hlt. destruct (Rlt_le_dec (cutv v (length ks) k') sc) as [Hl|Hl]; auto. exfalso.
      assert (Hij : im <= j) by (apply M2, Rgtb_false; exact Hl).
      assert (Hs : StronglySorted lt ks) by apply split_positions_sorted.
      destruct (Nat.eq_dec im j) as [->|Hn]; [rewrite Ek in Ej; injection Ej as ->; lia|].
      pose proof (StronglySorted_nth lt ks im j k k' Hs ltac:(lia) Ek Ej). lia. }
    rewrite Hge. cbn [o_best o_evals o_dist].
    change (g_far G d (o_dist s)) with (Rgtb d (o_dist s)).
    destruct (Rgeb sc (o_best s)) eqn:Eg.
    + apply Rgeb_true in Eg. destruct (Rgtb sc (o_best s)) eqn:Eg2; cbn [o_evals].
      * apply Rgtb_true in Eg2. eexists. split; [exact Hout|]. split; [reflexivity|]. left. split; [left; auto|auto].
      * apply Rgtb_false in Eg2. destruct (Rgtb d (o_dist s)) eqn:Eg3.
        -- apply Rgtb_true in Eg3. eexists. split; [exact Hout|]. split; [reflexivity|]. left. split; [right; split; lra|auto].
        -- apply Rgtb_false in Eg3. eexists. split; [exact Hout|]. split; [reflexivity|]. right. split; [intros [H|H]; lra|reflexivity].
    + apply Rgeb_false in Eg. eexists. split; [exact Hout|]. split; [reflexivity|]. right. split; [intros [H|H]; lra|reflexivity].
Qed.

(** ** Invariant of an optimization run *)
Definition run_ok (cs : list C) (s : st) : Prop :=
  o_evals s = length cs /\ (ns <= o_best s)%R /\
  (forall c v d pl, In c cs -> outc (nrm c) v d pl -> (v <= o_best s)%R) /\
  match o_plane s with
  | None => o_best s = ns /\ o_dist s = 0%R /\
      forall c v d pl, In c cs -> outc (nrm c) v d pl -> (v < ns \/ (v = ns /\ d <= 0))%R
  | Some pl => exists c, In c cs /\ outc (nrm c) (o_best s) (o_dist s) pl /\
      forall c' d' pl', In c' cs -> outc (nrm c') (o_best s) d' pl' -> (d' <= o_dist s)%R
  end.
Definition seen_ok (c : C) (v : R) : Prop := ((forall k, ~ cand (nrm c) k) /\ v = ns) \/ exists d pl, outc (nrm c) v d pl.

Lemma run_ok_init : run_ok [] (opt_init G ns).
Proof. unfold run_ok, opt_init. simpl. repeat split; auto; try lra; intros; tauto. Qed.

Lemma run_ok_step cs s c : run_ok cs s ->
  run_ok (c :: cs) (fst (compute s c)) /\ seen_ok c (snd (compute s c)).
Proof.
  intros (He & Hns & Hbest & Hpl).
  destruct (compute_cases s c) as [[Hno Ec]|(v & d & pl & s' & Hout & Ec & Heff)]; rewrite Ec; cbn [fst snd].
  - assert (Hc : forall v d pl, ~ outc (nrm c) v d pl) by (intros v d pl (m & k & _ & Hk & _); eapply Hno; eauto).
    split; [|left; auto]. unfold run_ok, bump_evals. cbn [o_evals o_best o_dist o_plane].
    split; [simpl; auto|]. split; auto. split.
    { intros c' v d pl [<-|Hi] H; [exfalso; eapply Hc; eauto|eauto]. }
    destruct (o_plane s) as [pl|].
    + destruct Hpl as (c0 & Hi & Ho & Hm). exists c0. split; [right; auto|]. split; auto.
      intros c' d' pl' [<-|H] H'; [exfalso; eapply Hc; eauto|eauto].
    + destruct Hpl as (E1 & E2 & Hm). repeat split; auto.
      intros c' v' d' pl' [<-|H] H'; [exfalso; eapply Hc; eauto|eauto].
  - split; [|right; eauto]. destruct Heff as [[Ha ->]|[Ha ->]]; unfold run_ok, bump_evals; cbn [o_evals o_best o_dist o_plane].
    + assert (Hv : (o_best s <= v)%R) by (destruct Ha; lra).
      split; [simpl; auto|]. split; [lra|]. split.
      { intros c' v' d' pl' [<-|Hi] H; [destruct (outcome_det _ _ _ _ _ _ _ Hout H) as (-> & _); lra|].
        specialize (Hbest _ _ _ _ Hi H). lra. }
      exists c. split; [left; auto|]. split; auto.
      intros c' d' pl' [<-|Hi] H; [destruct (outcome_det _ _ _ _ _ _ _ Hout H) as (_ & -> & _); lra|].
      specialize (Hbest _ _ _ _ Hi H). destruct Ha as [Ha|[Ha Hd]]; [lra|].
      destruct (o_plane s) as [pl0|].
      * destruct Hpl as (c0 & _ & _ & Hm). rewrite Ha in H. specialize (Hm _ _ _ Hi H). lra.
      * destruct Hpl as (E1 & E2 & Hm). destruct (Hm _ _ _ _ Hi H); lra.
    + assert (Hv : (v <= o_best s)%R) by (destruct (Rle_lt_dec v (o_best s)); auto; exfalso; apply Ha; left; lra).
      split; [simpl; auto|]. split; auto. split.
      { intros c' v' d' pl' [<-|Hi] H; [destruct (outcome_det _ _ _ _ _ _ _ Hout H) as (-> & _); lra|eauto]. }
      assert (Hd : (v = o_best s -> d <= o_dist s)%R).
      { intros Ev. destruct (Rle_lt_dec d (o_dist s)); auto. exfalso. apply Ha. right. split; lra. }
      destruct (o_plane s) as [pl0|].
      * destruct Hpl as (c0 & Hi & Ho & Hm). exists c0. split; [right; auto|]. split; auto.
        intros c' d' pl' [<-|H] H'; [|eauto]. destruct (outcome_det _ _ _ _ _ _ _ Hout H') as (Ev & -> & _). auto.
      * destruct Hpl as (E1 & E2 & Hm). repeat split; auto.
        intros c' v' d' pl' [<-|H] H'; [|eauto]. destruct (outcome_det _ _ _ _ _ _ _ Hout H') as (<- & <- & _).
        destruct (Rlt_le_dec v ns) as [Hlt|Hge']; [left; auto|right]. assert (v = ns) by lra. split; auto.
        rewrite <- E2. apply Hd. lra.
Qed.

Lemma run_best_in cs s seen : run_ok cs s -> Forall2 seen_ok cs seen ->
  (forall v, In v seen -> (v <= o_best s)%R) /\ (In (o_best s) seen \/ o_best s = ns).
Proof.
  intros (_ & Hns & Hbest & Hpl) H2. split.
  - intros v Hv. clear Hpl. revert Hbest Hv. induction H2 as [|c v' cs' seen' H1 H2 IH]; intros Hbest Hv; [inversion Hv|].
    destruct Hv as [<-|Hv].
    + destruct H1 as [[_ ->]|(d & pl & Ho)]; auto. eapply Hbest; [left; reflexivity|eauto].
    + apply IH; auto. intros; eapply Hbest; [right|]; eauto.
  - destruct (o_plane s) as [pl|]; [|tauto]. left. destruct Hpl as (c & Hi & Ho & _).
    clear - H2 Hi Ho Hsrt Hprior. induction H2 as [|c' v' cs' seen' H1 H2 IH]; [inversion Hi|].
    destruct Hi as [->|Hi]; [left|right; auto].
    destruct H1 as [[Hno _]|(d & pl' & Ho')].
    + destruct Ho as (m & k & _ & Hk & _). exfalso. eapply Hno; eauto.
    + destruct (outcome_det _ _ _ _ _ _ _ Ho Ho') as (-> & _). auto.
Qed.

(** Any adaptive optimizer, after any number of steps. *)
Lemma adaptive_ok next steps : forall cs s seen, run_ok cs s -> Forall2 seen_ok cs seen -> chosen next cs seen ->
  let r := opt_adaptive G L X y n_dim lvl prior rows ns next steps s seen in
  exists cs', run_ok cs' (fst r) /\ Forall2 seen_ok cs' (snd r) /\ chosen next cs' (snd r).
Proof.
  induction steps as [|k IH]; intros cs s seen Hr H2 Hch; cbn [opt_adaptive].
  - exists cs. auto.
  - destruct (next seen) as [c|] eqn:En; [|exists cs; auto].
    destruct (run_ok_step cs s c Hr) as [Hr' Hs].
    apply (IH (c :: cs)); auto. split; auto.
Qed.

Lemma opt_run_ok cs : run_ok (rev cs) (opt_run G L X y n_dim lvl prior rows ns cs).
Proof.
  unfold opt_run. rewrite <- fold_left_rev_right. generalize (rev cs). clear cs.
  induction l as [|c l IH]; simpl; [apply run_ok_init|]. apply run_ok_step. auto.
Qed.
End Objective.
