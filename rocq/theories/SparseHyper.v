(** * SparseHyper: hyperplane trees on compressed matrices, over the reals. *)
From Coq Require Import Reals Permutation FunctionalExtensionality Lra.
From Verif Require Import Prelude Lists Tree Perp RealOps Validate Hyper ApiSpec Sparse SparseSpec SparseProofs StructPrior ImportanceProofs.
Local Open Scope nat_scope.

Notation rentry := (entry 0%R Rplus).

Lemma fold_plus_vsum l : forall a, fold_left Rplus l a = (a + vsum l)%R.
Proof. induction l as [|x l IH]; intros a; cbn; [lra|]. rewrite IH. unfold vsum. cbn. lra. Qed.

(** ** Row selection *)

Lemma select_rows_ok {A} (M : smat A) idx : s_ok (select_rows M idx).
Proof.
  cbn. apply of_lanes_ok. intros l e Hl He. apply in_map_iff in Hl as (d & <- & _). eapply pick_minor; eauto.
Qed.
Lemma select_rows_rows {A} (M : smat A) idx : s_rows (select_rows M idx) = length idx.
Proof. reflexivity. Qed.
Lemma select_rows_cols {A} (M : smat A) idx : s_cols (select_rows M idx) = s_cols M.
Proof. cbn. now rewrite map_length, seq_length. Qed.

Lemma select_rows_entry {A} (zero : A) add (M : smat A) idx p j : s_ok M -> p < length idx -> j < s_cols M ->
  entry zero add (select_rows M idx) p j = entry zero add M (nth p idx 0) j.
Proof.
  intros H Hp Hj. rewrite !entry_stored, <- !csc_lane_stored by (auto using select_rows_ok). f_equal.
  unfold csc_lane at 1, select_rows. cbn [to_csc]. rewrite lane_of_lanes, nth_seq_map by auto. apply pick_filter. auto.
Qed.

Lemma select_dense (M : smat R) idx p : s_ok M -> p < length idx -> dense_row (select_rows M idx) p = dense_row M (nth p idx 0).
Proof.
  intros H Hp. unfold dense_row. rewrite select_rows_cols. apply map_ext_in. intros j Hj. apply in_seq in Hj.
  apply select_rows_entry; auto; lia.
Qed.

Lemma csc_dense (M : smat R) i : s_ok M -> dense_row (to_csc M) i = dense_row M i.
Proof. intros H. unfold dense_row. rewrite cols_csc. apply map_ext. intros j. now apply entry_csc. Qed.

Lemma dense_length M i : length (dense_row M i) = s_cols M.
Proof. unfold dense_row. now rewrite map_length, seq_length. Qed.

Lemma read_row_ok (M : smat R) i : s_ok M -> read_row M i = dense_row M i.
Proof.
  intros H. unfold read_row, first_row. cbn [a_data]. set (N := select_rows M [i]).
  assert (a_shape (toarray 0%R Rplus N) = [1; s_cols N]) as -> by reflexivity. cbn [nth].
  pose proof (toarray_length 0%R Rplus N) as El. change (s_rows N) with 1 in El. rewrite Nat.mul_1_l in El.
  rewrite <- El, firstn_all. apply (nth_ext _ _ 0%R 0%R).
  - rewrite El, dense_length. apply select_rows_cols.
  - intros j Hj. rewrite El in Hj. pose proof (toarray_nth 0%R Rplus N 0 j (select_rows_ok _ _)) as E. cbn [Nat.mul Nat.add] in E.
    rewrite E by (auto; unfold N; rewrite select_rows_rows; cbn; lia). unfold N in *. rewrite select_rows_cols in Hj.
    rewrite select_rows_entry by (cbn; auto; lia). unfold dense_row. rewrite nth_seq_map by auto. reflexivity.
Qed.

(** ** Matrix times vector *)

Lemma dot_entries M i v : dot (dense_row M i) v = vsum (map (fun j => rentry M i j * nth j v 0)%R (seq 0 (s_cols M))).
Proof.
  unfold dot, dense_row. generalize (s_cols M) as n. intros n.
  assert (forall (f : nat -> R) n s v, vsum (map2 Rmult (map f (seq s n)) v) = vsum (map (fun j => f j * nth (j - s) v 0)%R (seq s n))) as G.
  { intros f. induction n0 as [|m IH]; intros s [|a w]; cbn [seq map map2]; try reflexivity.
    - cbn. rewrite (vsum_ext _ (fun _ => 0%R)); [rewrite vsum_const|]; [rewrite Rmult_0_r|].
      + destruct (s - s); lra.
      + intros j _. destruct (j - s); lra.
    - unfold vsum in *. cbn [fold_right]. rewrite Nat.sub_diag. cbn [nth]. rewrite (IH (S s) w). f_equal.
      apply (f_equal (fold_right Rplus 0%R)). apply map_ext_in. intros j Hj. apply in_seq in Hj.
      replace (j - s) with (S (j - S s)) by lia. reflexivity. }
  rewrite G. apply (f_equal vsum). apply map_ext. intros j. now rewrite Nat.sub_0_r.
Qed.

Lemma vsum_flat {B} (g : B -> list R) l : vsum (flat_map g l) = vsum (map (fun b => vsum (g b)) l).
Proof. induction l as [|b l IH]; cbn [flat_map map]; [reflexivity|]. rewrite vsum_app, IH. reflexivity. Qed.

Lemma filter_flat_map {B C} (p : C -> bool) (g : B -> list C) l : filter p (flat_map g l) = flat_map (fun b => filter p (g b)) l.
Proof. induction l as [|b l IH]; cbn; [reflexivity|]. now rewrite filter_app, IH. Qed.
Lemma map_flat_map {B C E} (f : C -> E) (g : B -> list C) l : map f (flat_map g l) = flat_map (fun b => map f (g b)) l.
Proof. induction l as [|b l IH]; cbn; [reflexivity|]. now rewrite map_app, IH. Qed.

Lemma matvec_ok (M : smat R) v : s_ok M -> matvec M v = map (fun i => dot (dense_row M i) v) (seq 0 (s_rows M)).
Proof.
  intros H. unfold matvec. apply (nth_ext _ _ 0%R 0%R).
  - now rewrite fold_add_length, repeat_length, map_length, seq_length.
  - intros i Hi. rewrite fold_add_length, repeat_length in Hi. rewrite fold_add_nth by (now rewrite repeat_length).
    rewrite nth_repeat_all, nth_seq_map by auto. rewrite fold_plus_vsum, Rplus_0_l, dot_entries.
    rewrite filter_flat_map, map_flat_map, vsum_flat. apply vsum_ext. intros j _.
    rewrite filter_map_comm, map_map. cbn [fst snd].
    rewrite entry_stored, <- csc_lane_stored, fold_plus_vsum, Rplus_0_l by auto.
    set (es := filter _ _). induction es as [|e es IH]; cbn [map]; [unfold vsum; cbn; lra|].
    unfold vsum in *. cbn [fold_right]. rewrite IH. lra.
Qed.

(** ** Fitting *)

Section HyperFit.
Context {C P S : Type}.
Variables (pre : C -> list R) (prec : R) (srt : (nat -> R) -> nat -> list nat).
Variable L : lik R P S.
Variable post : R -> P -> list R -> P.
Hypothesis Hperm : permutes srt.
Hypothesis Hkeys : reads_keys srt.
Notation G := (geo_R pre prec srt).
Variables (X : nat -> list R) (y : nat -> R) (n_dim : nat).

(** [M], [ys] are rows [rows] of the training set. *)
Definition shows (M : smat R) (ys : list R) (rows : list nat) : Prop :=
  s_ok M /\ s_rows M = length rows /\ s_cols M = n_dim /\
  (forall k, k < length rows -> dense_row M k = X (nth k rows 0)) /\ ys = map y rows.

Lemma shows_csc M ys rows : shows M ys rows -> shows (to_csc M) ys rows.
Proof.
  intros (H1 & H2 & H3 & H4 & H5). split; [now apply csc_ok|]. rewrite rows_csc, cols_csc. split; [auto|]. split; [auto|]. split; [|auto].
  intros k Hk. rewrite csc_dense; auto.
Qed.

Lemma shows_matvec M ys rows v : shows M ys rows -> matvec M v = map (fun i => dot (X i) v) rows.
Proof.
  intros (H1 & H2 & H3 & H4 & H5). rewrite matvec_ok by auto. rewrite H2, <- (map_nth_seq (fun i => dot (X i) v) rows).
  apply map_ext_in. intros k Hk. apply in_seq in Hk. rewrite H4 by lia. reflexivity.
Qed.

Lemma sort_range f n k : 0 < n -> nth k (srt f n) 0 < n.
Proof.
  intros Hn. destruct (Nat.lt_ge_cases k (length (srt f n))) as [H|H].
  - apply (nth_In _ 0) in H. eapply Permutation_in in H; [|apply Hperm]. apply in_seq in H. lia.
  - rewrite nth_overflow; lia.
Qed.

Lemma nth_map_rows (f : nat -> R) (rows : list nat) k d : k < length rows -> nth k (map f rows) d = f (nth k rows 0).
Proof. intros H. rewrite (nth_indep _ d (f 0)) by (now rewrite map_length). apply map_nth. Qed.

Lemma sopt_compute_eq M ys rows lvl prior ns st c : shows M ys rows ->
  sopt_compute pre prec srt L M ys lvl prior ns st c = opt_compute G L X y n_dim lvl prior rows ns st c.
Proof.
  intros H. apply shows_csc in H. unfold sopt_compute, opt_compute. cbn [g_unit g_proj g_argsort g_gap g_mid g_dist g_far geo_R].
  set (nrm := unit_vec (pre c)). rewrite (shows_matvec _ _ _ nrm H). rewrite map_length.
  destruct H as (H1 & H2 & H3 & H4 & H5). rewrite H3, H5.
  rewrite (Hkeys _ (fun k => dot (X (nth k rows 0)) nrm)) by (intros k Hk; now rewrite nth_map_rows).
  set (sort := srt _ _). set (splits := split_positions _ _).
  destruct splits as [|k0 ks] eqn:Es; [reflexivity|].
  assert (0 < length rows) as Hn by (destruct rows; [discriminate|cbn; lia]).
  rewrite (map_ext_in (fun k => nth k (map y rows) 0%R) (fun k => y (nth k rows 0))).
  2: { intros k Hk. apply nth_map_rows. eapply Permutation_in in Hk; [|apply Hperm]. apply in_seq in Hk. lia. }
  destruct (nth_error _ _) as [s|]; [|reflexivity]. destruct (nth_error _ _) as [k|]; [|reflexivity].
  rewrite !read_row_ok by auto. rewrite !H4 by (apply sort_range; auto). reflexivity.
Qed.

Lemma sopt_run_eq M ys rows lvl prior ns cs : shows M ys rows ->
  sopt_run pre prec srt L M ys lvl prior ns cs = opt_run G L X y n_dim lvl prior rows ns cs.
Proof.
  intros H. unfold sopt_run, opt_run. change (mkOpt 0 ns 0%R None) with (@opt_init _ _ _ _ _ _ S G ns).
  generalize (@opt_init _ _ _ _ _ _ S G ns) as st. induction cs as [|c cs IH]; intros st; cbn [fold_left]; [reflexivity|].
  rewrite (sopt_compute_eq M ys rows) by auto. apply IH.
Qed.

Lemma shows_select M ys rows (f : nat -> bool) idx : shows M ys rows -> idx = np_where (map f rows) ->
  shows (select_rows M idx) (map (fun k => nth k ys 0%R) idx) (filter f rows) /\ length idx = length (filter f rows).
Proof.
  intros (H1 & H2 & H3 & H4 & H5) E.
  assert (filter f rows = gather_idx rows idx) as Eg by (rewrite E; symmetry; apply gather_where).
  assert (forall k, In k idx -> k < length rows) as Hr.
  { intros k Hk. rewrite E in Hk. apply np_where_In in Hk. assert (nth_error (map f rows) k <> None) as Hs by (rewrite Hk; discriminate).
    apply nth_error_Some in Hs. now rewrite map_length in Hs. }
  assert (length idx = length (filter f rows)) as El by (rewrite Eg; unfold gather_idx; now rewrite map_length).
  split; [|exact El]. split; [apply select_rows_ok|]. rewrite select_rows_rows, select_rows_cols. split; [exact El|]. split; [exact H3|].
  split.
  - intros k Hk. rewrite <- El in Hk. rewrite select_dense by auto. rewrite H4 by (apply Hr, nth_In; auto).
    rewrite Eg. unfold gather_idx. f_equal.
    rewrite (nth_indep (map _ idx) 0 (nth 0 rows 0)) by (now rewrite map_length). now rewrite (map_nth (fun p => nth p rows 0)).
  - rewrite Eg. unfold gather_idx. rewrite map_map, H5. apply map_ext_in. intros k Hk. apply nth_map_rows. auto.
Qed.

Variable cands : list bool -> list C.

Lemma shfit_eq fuel : forall lvl path pa M ys rows, shows M ys rows ->
  shfit pre prec srt L post cands fuel lvl path pa M ys = hfit G L post X y n_dim cands fuel lvl path pa rows.
Proof.
  induction fuel as [|fuel IH]; intros lvl path pa M ys rows H; cbn [shfit hfit]; [reflexivity|].
  pose proof (shows_csc _ _ _ H) as Hc. rewrite (sopt_run_eq _ _ rows) by auto.
  assert (s_rows M = length rows) as -> by apply H. assert (s_cols M = n_dim) as -> by apply H.
  assert (ys = map y rows) as Ey by apply H. subst ys.
  set (st := opt_run _ _ _ _ _ _ _ _ _ _). destruct (o_plane st) as [pl|]; [|reflexivity].
  rewrite (shows_matvec _ _ _ _ Hc). cbn [g_back g_front geo_R].
  set (f1 := fun i => Rltb (dot (X i) (p_normal pl) - dot (p_normal pl) (p_origin pl)) 0).
  set (f2 := fun i => Rgeb (dot (X i) (p_normal pl) - dot (p_normal pl) (p_origin pl)) 0).
  rewrite !map_map.
  change (map (fun x => Rltb (dot (X x) (p_normal pl) - dot (p_normal pl) (p_origin pl)) 0) rows) with (map f1 rows).
  change (map (fun x => Rgeb (dot (X x) (p_normal pl) - dot (p_normal pl) (p_origin pl)) 0) rows) with (map f2 rows).
  destruct (shows_select _ _ _ f1 _ Hc eq_refl) as [S1 E1]. destruct (shows_select _ _ _ f2 _ Hc eq_refl) as [S2 E2].
  rewrite !select_rows_rows, E1, E2.
  rewrite !(IH _ _ _ _ _ _ S1), !(IH _ _ _ _ _ _ S2).
  assert (map (fun k => nth k (map y rows) 0%R) (np_where (map f1 rows)) = map y (filter f1 rows)) as -> by apply S1.
  assert (map (fun k => nth k (map y rows) 0%R) (np_where (map f2 rows)) = map y (filter f2 rows)) as -> by apply S2.
  reflexivity.
Qed.

End HyperFit.

Lemma nth_dense M ys : s_ok M -> length ys = s_rows M ->
  shows (dense_row M) (fun i => nth i ys 0%R) (s_cols M) M ys (seq 0 (s_rows M)).
Proof.
  intros H E. split; [auto|]. rewrite seq_length. split; [auto|]. split; [auto|]. split.
  - intros k Hk. now rewrite seq_nth by auto.
  - symmetry. apply (nth_ext _ _ 0%R 0%R); [now rewrite map_length, seq_length|].
    intros k Hk. rewrite map_length, seq_length in Hk. now rewrite nth_seq_map.
Qed.

Lemma sparse_hfit_eq {C P S} (pre : C -> list R) prec srt (L : lik R P S) post same prn lvl pa cands M ys :
  permutes srt -> reads_keys srt -> s_ok M -> length ys = s_rows M ->
  sparse_hfit pre prec srt L post cands same prn lvl pa M ys =
  hyper_fit (geo_R pre prec srt) L post same prn lvl pa cands (mkHSet (s_rows M) (s_cols M) (dense_row M) (fun i => nth i ys 0%R)).
Proof.
  intros H1 H2 H3 H4. unfold sparse_hfit, hyper_fit. cbn [hs_n hs_dim hs_X hs_y].
  rewrite (shfit_eq pre prec srt L post H1 H2 (dense_row M) (fun i => nth i ys 0%R) (s_cols M) cands _ _ _ _ _ _ (seq 0 (s_rows M))) by (now apply nth_dense).
  reflexivity.
Qed.

Lemma shyper_kids_eq M idx pl : s_ok M ->
  shyper_kids M idx pl = Ok (np_where (map (behind (dense_row M) pl) idx), np_where (map (before (dense_row M) pl) idx)).
Proof.
  intros H. unfold shyper_kids. rewrite matvec_ok by apply select_rows_ok. rewrite select_rows_rows, !map_map.
  rewrite (map_ext_in _ (fun p => behind (dense_row M) pl (nth p idx 0))).
  2: { intros p Hp. apply in_seq in Hp. rewrite select_dense by (auto; lia). reflexivity. }
  rewrite (map_ext_in (fun x => Rgeb _ _) (fun p => before (dense_row M) pl (nth p idx 0))).
  2: { intros p Hp. apply in_seq in Hp. rewrite select_dense by (auto; lia). reflexivity. }
  now rewrite !map_nth_seq.
Qed.
