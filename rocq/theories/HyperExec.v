(** * HyperExec: an executable rational shadow of the hyperplane classification fit (used to obtain concrete
    fitted trees; [hexec_sound] relates it to the real-number model). *)
From Coq Require Import QArith Qreals Qabs Permutation Sorted.
From Verif Require Import Prelude Lists Tree Perp RealOps Clf Api Hyper Spec FitProofs PruneProofs OptSpec OptProofs
  Transport ClfSpec ClfProofs ApiSpec HyperSpec Exec Witness HyperOpt HyperDist HyperApi HyperLemmas.
Local Open Scope nat_scope.

Definition qsum (l : list Q) : Q := fold_right Qplus 0%Q l.
Definition qdot (a b : list Q) : Q := qsum (map2 Qmult a b).
(** Candidates are rational unit vectors. *)
Definition qgeo (prec : Q) : geo (list Q) (list Q) (list Q) (list Q) Q Q := {|
  g_unit := fun c => c;
  g_proj := qdot;
  g_argsort := argsort_by Qle_bool;
  g_gap := fun a b => qgt (Qabs (b - a)) prec;
  g_mid := fun p1 p2 => map2 (fun a b => (1 # 2) * (a + b))%Q p1 p2;
  g_dist := fun nrm org ps => qsum (map (fun p => Qabs (p - qdot nrm org)) ps);
  g_zero := 0%Q;
  g_far := qgt;
  g_back := fun nrm org x => qgt 0 (qdot x nrm - qdot nrm org);
  g_front := fun nrm org x => Qle_bool 0 (qdot x nrm - qdot nrm org)
|}.
Definition zpost (delta : R) (p : list Z) (ys : list nat) : list Z := p.
Definition hexec (pp prec : Q) (prn : bool) (prior : list Z) (cands : list bool -> list (list Q)) (d : hset (list Q) nat)
    : res (tree (plane (list Q) (list Q)) Q (list Z)) :=
  hyper_fit (qgeo prec) (qlik pp 0) zpost zsame prn 0 (Some prior) cands d.

Definition vecR (v : list Q) : list R := map Q2R v.
Definition planeR (pl : plane (list Q) (list Q)) : plane (list R) (list R) := mkPlane (vecR (p_normal pl)) (vecR (p_origin pl)).
Definition lnQ (q : Q) : R := ln (Q2R q).
Fixpoint htreeR (t : tree (plane (list Q) (list Q)) Q (list Z)) : hctree :=
  match t with
  | Leaf i => Leaf (info_R i)
  | Split i pl a b c1 c2 => Split (info_R i) (planeR pl) (lnQ a) (lnQ b) (htreeR c1) (htreeR c2)
  end.
Definition hsetR (d : hset (list Q) nat) : hset (list R) R :=
  mkHSet (hs_n d) (hs_dim d) (fun i => vecR (hs_X d i)) (fun i => INR (hs_y d i)).
Definition optR (st : hopt (list Q) (list Q) Q Q) : hopt (list R) (list R) R R :=
  mkOpt (o_evals st) (lnQ (o_best st)) (Q2R (o_dist st)) (option_map planeR (o_plane st)).

(** ** Homomorphism facts *)
Lemma Q2R_0 : Q2R 0 = 0%R. Proof. unfold Q2R; simpl; lra. Qed.
Lemma vsum_Q l : vsum (map Q2R l) = Q2R (qsum l).
Proof.
  induction l as [|x l IH]; [unfold vsum; simpl; rewrite Q2R_0; auto|]. cbn [map qsum fold_right]. rewrite vsum_cons, Q2R_plus.
  f_equal. exact IH.
Qed.
Lemma dot_Q a b : dot (vecR a) (vecR b) = Q2R (qdot a b).
Proof.
  unfold dot, qdot. rewrite <- vsum_Q. f_equal. unfold vecR. revert b. induction a as [|x a IH]; intros [|y b]; simpl; auto.
  rewrite Q2R_mult, IH. auto.
Qed.
Lemma Q2R_abs q : Q2R (Qabs q) = Rabs (Q2R q).
Proof.
  apply Qabs_case; intros H; apply Qle_Rle in H; rewrite Q2R_0 in H.
  - rewrite Rabs_pos_eq; auto.
  - rewrite Q2R_opp, Rabs_left1; auto.
Qed.
Lemma qgt_R a b : Rgtb (Q2R a) (Q2R b) = qgt a b.
Proof.
  destruct (qgt a b) eqn:E.
  - apply Rgtb_true. apply qgt_lt in E. apply Qlt_Rlt; auto.
  - apply Rgtb_false. apply qgt_le in E. apply Qle_Rle; auto.
Qed.
Lemma qle_R a b : Rleb (Q2R a) (Q2R b) = Qle_bool a b.
Proof.
  destruct (Qle_bool a b) eqn:E.
  - apply Rleb_true. apply Qle_Rle. apply Qle_bool_iff; auto.
  - apply Rleb_false. apply Qlt_Rlt. apply Qnot_le_lt. intros H. apply Qle_bool_iff in H. congruence.
Qed.
Lemma lnQ_gt a b : (0 < a)%Q -> (0 < b)%Q -> Rgtb (lnQ a) (lnQ b) = qgt a b.
Proof.
  intros Ha Hb. apply Q2R_gt0 in Ha, Hb. unfold lnQ. destruct (qgt a b) eqn:E.
  - apply Rgtb_true. apply qgt_lt in E. apply Qlt_Rlt in E. apply ln_increasing; auto.
  - apply Rgtb_false. apply qgt_le in E. apply Qle_Rle in E. destruct E as [E|E]; [left; apply ln_increasing; auto|right; congruence].
Qed.
Lemma lnQ_ge a b : (0 < a)%Q -> (0 < b)%Q -> Rgeb (lnQ a) (lnQ b) = Qle_bool b a.
Proof.
  intros Ha Hb. pose proof (lnQ_gt b a Hb Ha) as E. unfold qgt in E.
  destruct (Qle_bool b a); simpl in E.
  - apply Rgtb_false in E. apply Rgeb_true. lra.
  - apply Rgtb_true in E. apply Rgeb_false. lra.
Qed.
Lemma argsort_Q key n : argsort_by Rleb (fun j => Q2R (key j)) n = argsort_by Qle_bool key n.
Proof.
  unfold argsort_by. generalize (seq 0 n) as is. generalize (@nil nat) as acc. intros acc is. revert acc.
  induction is as [|i is IH]; intros acc; simpl; auto.
  replace (insert_by Rleb (fun j => Q2R (key j)) i acc) with (insert_by Qle_bool key i acc); [apply IH|].
  induction acc as [|j acc IHa]; simpl; auto. rewrite qle_R, IHa. auto.
Qed.
Lemma argsort_ext (k1 k2 : nat -> R) n : (forall j, k1 j = k2 j) -> argsort_by Rleb k1 n = argsort_by Rleb k2 n.
Proof.
  intros H. unfold argsort_by. generalize (seq 0 n) as is. generalize (@nil nat) as acc. intros acc is. revert acc.
  induction is as [|i is IH]; intros acc; simpl; auto.
  replace (insert_by Rleb k1 i acc) with (insert_by Rleb k2 i acc); [apply IH|].
  induction acc as [|j acc IHa]; simpl; auto. rewrite !H, IHa. auto.
Qed.
Lemma adjacent_map {A B} (g : A -> A -> bool) (g' : B -> B -> bool) (f : A -> B) l : (forall a b, g' (f a) (f b) = g a b) ->
  split_positions g' (map f l) = split_positions g l.
Proof.
  intros H. unfold split_positions. f_equal. f_equal.
  induction l as [|a l IH]; auto. destruct l as [|b l]; auto. cbn [map adjacent] in *. rewrite H. f_equal. exact IH.
Qed.
Lemma argmax_map {A B} (g : A -> A -> bool) (g' : B -> B -> bool) (f : A -> B) (ok : A -> Prop) l : Forall ok l ->
  (forall a b, ok a -> ok b -> g' (f a) (f b) = g a b) -> argmax g' (map f l) = argmax g l.
Proof.
  intros Hl H. destruct l as [|x l]; auto. inversion Hl as [|? ? Hx Hl']; subst. simpl.
  generalize 0, 1. revert x Hx Hl. induction l as [|z l IH]; intros x Hx Hl i j; simpl; auto.
  inversion Hl' as [|? ? Hz Hl'']; subst. rewrite H by auto. destruct (g z x); apply IH; auto.
Qed.

Section Sound.
Variable k : nat.
Variables pp prec : Q.
Hypothesis Hpp : (0 < pp)%Q /\ (pp < 1)%Q.
Variable d : hset (list Q) nat.
Variable cands : list bool -> list (list Q).
Hypothesis Hy : forall i, i < hs_n d -> hs_y d i < k.
Hypothesis Hdim : hs_dim d <> 0.
Hypothesis Hunit : forall path c, In c (cands path) -> (qdot c c == 1)%Q.

Notation GR := (geo_R vecR (Q2R prec) sort_R).
Notation LR := (clf_lik (Q2R pp) 0).
Notation X' := (hs_X (hsetR d)).
Notation y' := (hs_y (hsetR d)).

Lemma unit_Q c : (qdot c c == 1)%Q -> unit_vec (vecR c) = vecR c.
Proof.
  intros H. apply Qeq_eqR in H. rewrite <- dot_Q in H. replace (Q2R 1) with 1%R in H by (unfold Q2R; simpl; lra).
  unfold unit_vec. destruct (forallb (fun x => Reqb x 0) (vecR c)) eqn:E.
  - exfalso. assert (Hz : dot (vecR c) (vecR c) = 0%R); [|lra]. clear H. unfold dot. rewrite forallb_forall in E.
    induction (vecR c) as [|x l IH]; [reflexivity|]. cbn [map2]. rewrite vsum_cons, IH by (intros; apply E; simpl; auto).
    specialize (E x (or_introl eq_refl)). unfold Reqb in E. destruct (Req_EM_T x 0) as [->|]; [lra|discriminate].
  - unfold norm. rewrite H, sqrt_1. rewrite <- (map_id (vecR c)) at 2. apply map_ext. intros. field.
Qed.
Lemma map_y rows : map y' rows = map INR (map (hs_y d) rows).
Proof. rewrite map_map. reflexivity. Qed.

Lemma compute_Q lvl prior rows ns st c : zpok k prior -> (forall i, In i rows -> i < hs_n d) -> (qdot c c == 1)%Q ->
  (0 < ns)%Q -> (0 < o_best st)%Q ->
  let r := opt_compute (qgeo prec) (qlik pp 0) (hs_X d) (hs_y d) (hs_dim d) lvl prior rows ns st c in
  opt_compute GR LR X' y' (hs_dim d) lvl (map IZR prior) rows (lnQ ns) (optR st) c = (optR (fst r), lnQ (snd r)) /\
  (0 < o_best (fst r))%Q.
Proof.
  intros Hp Hr Hc Hns Hb r. unfold r, opt_compute. cbn [g_unit g_proj g_argsort g_gap geo_R qgeo].
  rewrite (unit_Q c Hc).
  assert (Eproj : map (fun i => dot (X' i) (vecR c)) rows = map Q2R (map (fun i => qdot (hs_X d i) c) rows)).
  { rewrite map_map. apply map_ext. intros i. apply dot_Q. }
  rewrite Eproj.
  rewrite (adjacent_map (fun a b => qgt (Qabs (b - a)) prec)) by (intros; rewrite <- qgt_R, Q2R_abs, Q2R_minus; auto).
  set (pos := split_positions _ _).
  assert (Epos : forall j, In j pos -> 1 <= j < length rows).
  { intros j Hj. unfold pos in Hj. apply split_positions_In in Hj as (a & b & H1 & H2 & H3 & _).
    assert (j < length (map (fun i => qdot (hs_X d i) c) rows)) by (apply nth_error_Some; congruence). rewrite map_length in H. lia. }
  assert (Hsort : StronglySorted lt pos) by apply split_positions_sorted.
  unfold sort_R. rewrite (argsort_ext _ (fun j => Q2R (qdot (hs_X d (nth j rows 0)) c))) by (intros; apply dot_Q).
  rewrite (argsort_Q (fun j => qdot (hs_X d (nth j rows 0)) c)).
  set (ord := argsort_by Qle_bool _ _).
  assert (Hord : Permutation ord (seq 0 (length rows))).
  { unfold ord. rewrite <- argsort_Q. apply sort_R_sorts. }
  assert (Eys : map (fun j => y' (nth j rows 0)) ord = map INR (map (fun j => hs_y d (nth j rows 0)) ord)) by (rewrite map_map; reflexivity).
  rewrite Eys. set (ys := map (fun j => hs_y d (nth j rows 0)) ord).
  assert (Hlen : length ys = length rows) by (unfold ys; rewrite map_length, (Permutation_length Hord), seq_length; auto).
  assert (Hyk : Forall (fun v => v < k) ys).
  { unfold ys. apply Forall_forall. intros v Hv. apply in_map_iff in Hv as (j & <- & Hj). apply Hy, Hr, nth_In.
    eapply Permutation_in in Hj; [|exact Hord]. apply in_seq in Hj. lia. }
  destruct pos as [|k0 ks0] eqn:Ep; [split; auto|]. assert (Hpos : pos <> []) by congruence. rewrite <- Ep in *. clear k0 ks0 Ep.
  set (lp := l_split (qlik pp 0) lvl prior (hs_dim d) ys pos).
  assert (Hlp : l_split LR lvl (map IZR prior) (hs_dim d) (map INR ys) pos = map lnQ lp /\ Forall (fun q => (0 < q)%Q) lp).
  { pose proof (q_rel k pp 0 Hpp (Z.le_refl 0)) as Hrel.
    rewrite (ll_split _ _ _ _ (clf_law k (Q2R pp) 0 (Rle_refl 0))); auto; [|apply zpok_R; auto|apply yok_R; auto|rewrite map_length, Hlen; auto].
    unfold lp. cbn [l_split qlik]. rewrite map_map.
    assert (Hq : forall j, In j pos -> (0 < qcut pp lvl prior (hs_dim d) (length pos) (firstn j ys) (skipn j ys))%Q /\
      t_cut (clf_tgt (Q2R pp) 0) lvl (map IZR prior) (hs_dim d) (length pos) (firstn j (map INR ys)) (skipn j (map INR ys)) =
      lnQ (qcut pp lvl prior (hs_dim d) (length pos) (firstn j ys) (skipn j ys))).
    { intros j Hj. specialize (Epos j Hj). rewrite firstn_map, skipn_map.
      apply (tr_cut _ _ _ _ _ _ Hrel lvl prior (map IZR prior) (hs_dim d) (length pos) (firstn j ys) (skipn j ys)); auto.
      - split; auto.
      - apply Forall_forall. intros v Hv. rewrite Forall_forall in Hyk. apply Hyk. rewrite <- (firstn_skipn j ys). apply in_app_iff. auto.
      - apply Forall_forall. intros v Hv. rewrite Forall_forall in Hyk. apply Hyk. rewrite <- (firstn_skipn j ys). apply in_app_iff. auto.
      - intros Z. apply (f_equal (@length _)) in Z. rewrite firstn_length in Z. simpl in Z. lia.
      - intros Z. apply (f_equal (@length _)) in Z. rewrite skipn_length in Z. simpl in Z. lia.
      - destruct pos; simpl; congruence. }
    split; [apply map_ext_in; intros j Hj; apply Hq; auto|].
    apply Forall_forall. intros q Hin. apply in_map_iff in Hin as (j & <- & Hj). apply Hq; auto. }
  destruct Hlp as [Elp Hlp]. rewrite Elp. cbn [l_argmax l_ge l_gt clf_lik qlik].
  rewrite (argmax_map qgt Rgtb lnQ (fun q => (0 < q)%Q) lp Hlp) by (intros; apply lnQ_gt; auto).
  set (im := argmax qgt lp). rewrite nth_error_map.
  destruct (nth_error lp im) as [s|] eqn:Es; cbn [option_map]; [|split; auto].
  destruct (nth_error pos im) as [j|]; [|split; auto].
  assert (Hs : (0 < s)%Q) by (rewrite Forall_forall in Hlp; apply Hlp; eapply nth_error_In; eauto).
  cbn [o_best o_dist o_evals o_plane optR].
  rewrite lnQ_ge, lnQ_gt by auto. destruct (Qle_bool (o_best st) s) eqn:Ege; [|split; auto].
  cbn [g_mid g_dist g_far geo_R qgeo].
  set (p1 := hs_X d (nth (nth (j - 1) ord 0) rows 0)). set (p2 := hs_X d (nth (nth j ord 0) rows 0)).
  change (X' (nth (nth (j - 1) ord 0) rows 0)) with (vecR p1). change (X' (nth (nth j ord 0) rows 0)) with (vecR p2).
  assert (Emid : map2 (fun a b => / 2 * (a + b))%R (vecR p1) (vecR p2) = vecR (map2 (fun a b => (1 # 2) * (a + b))%Q p1 p2)).
  { unfold vecR. generalize p1, p2. induction p0 as [|a l IH]; intros [|b m]; simpl; auto. rewrite IH, Q2R_mult, Q2R_plus.
    f_equal. f_equal. unfold Q2R. simpl. lra. }
  rewrite Emid. set (org := map2 (fun a b => ((1 # 2) * (a + b))%Q) p1 p2).
  rewrite dot_Q.
  assert (Edist : vsum (map (fun p => Rabs (p - Q2R (qdot c org))) (map Q2R (map (fun i => qdot (hs_X d i) c) rows))) =
    Q2R (qsum (map (fun p => Qabs (p - qdot c org)) (map (fun i => qdot (hs_X d i) c) rows)))).
  { rewrite <- vsum_Q, !map_map. f_equal. apply map_ext. intros i. rewrite Q2R_abs, Q2R_minus. auto. }
  rewrite Edist, qgt_R. destruct (qgt s (o_best st)); [split; auto|].
  destruct (qgt _ (o_dist st)); split; auto.
Qed.

Lemma run_Q lvl prior rows ns cs : zpok k prior -> (forall i, In i rows -> i < hs_n d) -> (forall c, In c cs -> (qdot c c == 1)%Q) -> (0 < ns)%Q ->
  opt_run GR LR X' y' (hs_dim d) lvl (map IZR prior) rows (lnQ ns) cs =
  optR (opt_run (qgeo prec) (qlik pp 0) (hs_X d) (hs_y d) (hs_dim d) lvl prior rows ns cs).
Proof.
  intros Hp Hr Hc Hns. unfold opt_run.
  assert (Ei : opt_init GR (lnQ ns) = optR (opt_init (qgeo prec) ns)) by (unfold opt_init, optR; simpl; rewrite Q2R_0; auto).
  rewrite Ei. assert (Hb : (0 < o_best (@opt_init (list Q) (list Q) (list Q) (list Q) Q Q Q (qgeo prec) ns))%Q) by auto. revert Hb.
  generalize (@opt_init (list Q) (list Q) (list Q) (list Q) Q Q Q (qgeo prec) ns). clear Ei.
  induction cs as [|c cs IH]; intros st Hb; cbn [fold_left]; auto.
  destruct (compute_Q lvl prior rows ns st c Hp Hr (Hc c (or_introl eq_refl)) Hns Hb) as [E1 E2].
  rewrite E1. cbn [fst]. apply IH; auto. intros; apply Hc; simpl; auto.
Qed.

Lemma hfit_Q prior : zpok k prior -> forall fuel lvl path rows, rows <> [] -> (forall i, In i rows -> i < hs_n d) ->
  hfit GR LR clf_posterior X' y' (hs_dim d) cands fuel lvl path (Some (map IZR prior)) rows =
  match hfit (qgeo prec) (qlik pp 0) zpost (hs_X d) (hs_y d) (hs_dim d) cands fuel lvl path (Some prior) rows with
  | Ok t => Ok (htreeR t) | Err e => Err e end.
Proof.
  intros Hp. induction fuel as [|fuel IH]; intros lvl path rows Hne Hr; [reflexivity|].
  cbn [hfit]. cbn [l_prior clf_lik qlik t_prior qtgt clf_get_prior].
  pose proof (q_rel k pp 0 Hpp (Z.le_refl 0)) as Hrel.
  assert (Hyk : Forall (fun v => v < k) (map (hs_y d) rows)).
  { apply Forall_forall. intros v Hv. apply in_map_iff in Hv as (i & <- & Hi). auto. }
  assert (Hyn : map (hs_y d) rows <> []) by (destruct rows; [congruence|discriminate]).
  assert (Hpost : forall ys, Forall (fun v => v < k) ys -> ys <> [] -> l_post LR (map IZR prior) (map INR ys) = map IZR (l_post (qlik pp 0) prior ys)).
  { intros ys A B. rewrite (ll_post _ _ _ _ (clf_law k (Q2R pp) 0 (Rle_refl 0))); [|apply zpok_R; auto|apply yok_R; auto|destruct ys; [congruence|discriminate]].
    apply (tr_post _ _ _ _ _ _ Hrel prior (map IZR prior) ys); auto. split; auto. }
  assert (Hns : (0 < l_no_split (qlik pp 0) lvl prior (map (hs_y d) rows))%Q /\
    l_no_split LR lvl (map IZR prior) (map y' rows) = lnQ (l_no_split (qlik pp 0) lvl prior (map (hs_y d) rows))).
  { rewrite map_y. rewrite (ll_stop _ _ _ _ (clf_law k (Q2R pp) 0 (Rle_refl 0))); [|apply zpok_R; auto|apply yok_R; auto|destruct rows; [congruence|discriminate]].
    apply (tr_stop _ _ _ _ _ _ Hrel lvl prior (map IZR prior) (map (hs_y d) rows)); auto. split; auto. }
  destruct Hns as [Hns Ens]. rewrite Ens.
  rewrite run_Q by (eauto using Hunit).
  set (st := opt_run (qgeo prec) _ _ _ _ _ _ _ _ _). cbn [optR o_plane o_best].
  destruct (o_plane st) as [pl|] eqn:Epl; cbn [option_map].
  2:{ cbn [htreeR info_R]. unfold info_R. cbn [option_map i_prior i_level i_n_data i_n_dim i_post]. rewrite map_y, Hpost by auto. reflexivity. }
  assert (E1 : filter (fun i => g_back GR (p_normal (planeR pl)) (p_origin (planeR pl)) (X' i)) rows =
     filter (fun i => g_back (qgeo prec) (p_normal pl) (p_origin pl) (hs_X d i)) rows).
  { apply filter_ext. intros i. cbn [g_back geo_R qgeo planeR p_normal p_origin]. change (X' i) with (vecR (hs_X d i)).
    rewrite !dot_Q, <- Q2R_minus, <- Q2R_0. apply qgt_R. }
  assert (E2 : filter (fun i => g_front GR (p_normal (planeR pl)) (p_origin (planeR pl)) (X' i)) rows =
     filter (fun i => g_front (qgeo prec) (p_normal pl) (p_origin pl) (hs_X d i)) rows).
  { apply filter_ext. intros i. cbn [g_front geo_R qgeo planeR p_normal p_origin]. change (X' i) with (vecR (hs_X d i)).
    rewrite !dot_Q, <- Q2R_minus, <- Q2R_0. apply qle_R. }
  rewrite E1, E2. clear E1 E2.
  set (r1 := filter (fun i => g_back (qgeo prec) (p_normal pl) (p_origin pl) (hs_X d i)) rows).
  set (r2 := filter (fun i => g_front (qgeo prec) (p_normal pl) (p_origin pl) (hs_X d i)) rows).
  destruct ((0 <? length r1) && (0 <? length r2)) eqn:Eb.
  2:{ cbn [htreeR info_R]. unfold info_R. cbn [option_map i_prior i_level i_n_data i_n_dim i_post]. rewrite map_y, Hpost by auto. reflexivity. }
  apply andb_true_iff in Eb as [Eb1 Eb2]. apply Nat.ltb_lt in Eb1, Eb2.
  rewrite !clf_posterior_0. unfold zpost at 1 2 3 4.
  assert (Hchild : forall b rc, rc <> [] -> (forall i, In i rc -> In i rows) ->
    (if (1 <? length rc) && l_many LR (map y' rc)
     then hfit GR LR clf_posterior X' y' (hs_dim d) cands fuel (lvl + 1) (path ++ [b]) (Some (map IZR prior)) rc
     else Ok (Leaf (mkInfo (Some (map IZR prior)) (lvl + 1) (length rc) None (l_post LR (map IZR prior) (map y' rc))))) =
    match (if (1 <? length rc) && l_many (qlik pp 0) (map (hs_y d) rc)
     then hfit (qgeo prec) (qlik pp 0) zpost (hs_X d) (hs_y d) (hs_dim d) cands fuel (lvl + 1) (path ++ [b]) (Some prior) rc
     else Ok (Leaf (mkInfo (Some prior) (lvl + 1) (length rc) None (l_post (qlik pp 0) prior (map (hs_y d) rc)))))
    with Ok t => Ok (htreeR t) | Err e => Err e end).
  { intros b rc Hrc Hin.
    assert (Hyc : Forall (fun v => v < k) (map (hs_y d) rc)).
    { apply Forall_forall. intros v Hv. apply in_map_iff in Hv as (i & <- & Hi). auto. }
    assert (Em : l_many LR (map y' rc) = l_many (qlik pp 0) (map (hs_y d) rc)).
    { apply eq_true_iff_eq. rewrite map_y. cbn [l_many qlik clf_lik]. rewrite zmany_many, many_R_many.
      symmetry. apply (tr_many _ _ _ _ _ _ Hrel); auto. }
    rewrite Em. destruct ((1 <? length rc) && _).
    - apply IH; auto.
    - cbn [htreeR]. unfold info_R. cbn [option_map i_prior i_level i_n_data i_n_dim i_post]. rewrite map_y, Hpost; auto.
      destruct rc; [congruence|discriminate]. }
  rewrite (Hchild false r1), (Hchild true r2); try (intros Z; rewrite Z in *; simpl in *; lia);
    try (intros i Hi; apply filter_In in Hi; tauto).
  destruct (if (1 <? length r1) && _ then _ else _) as [c1|e]; [|reflexivity]. cbn [rbind].
  destruct (if (1 <? length r2) && _ then _ else _) as [c2|e]; [|reflexivity]. cbn [rbind htreeR].
  unfold info_R. cbn [option_map i_prior i_level i_n_data i_n_dim i_post]. rewrite map_y, Hpost by auto. reflexivity.
Qed.
End Sound.

Lemma prune_htreeR t : prune_bu clf_same (htreeR t) = htreeR (prune_bu zsame t).
Proof.
  induction t as [i|i pl a b c1 IH1 c2 IH2]; auto. cbn [htreeR prune_bu]. rewrite IH1, IH2.
  destruct (prune_bu zsame c1) as [i1|]; cbn [htreeR]; auto. destruct (prune_bu zsame c2) as [i2|]; cbn [htreeR]; auto.
  unfold clf_same, zsame, info_R. cbn [i_post]. rewrite !zargmax_R. destruct (Nat.eqb _ _); auto.
Qed.

(** Decidable side conditions. *)
Definition hset_okb (k : nat) (prior : list Z) (d : hset (list Q) nat) : bool :=
  (0 <? hs_n d) && (0 <? hs_dim d) && Nat.eqb (length prior) k && forallb (fun a => (0 <? a)%Z) prior &&
  forallb (fun i => (hs_y d i <? k) && Nat.eqb (length (hs_X d i)) (hs_dim d)) (seq 0 (hs_n d)).

Theorem hexec_sound k pp prec delta prn prior cands d t :
  (0 < pp)%Q /\ (pp < 1)%Q -> (0 <= prec)%Q -> hset_okb k prior d = true ->
  (forall path c, In c (cands path) -> (qdot c c == 1)%Q) ->
  hexec pp prec prn prior cands d = Ok t ->
  let h := mkHyper (Q2R pp) (Some (map IZR prior)) delta prn (Q2R prec) in
  hclf_setting sort_R k (map IZR prior) h (hsetR d) /\ hclf_fit vecR sort_R cands h (hsetR d) = Ok (htreeR t).
Proof.
  intros Hpp Hprec Hok Hunit E h. unfold hset_okb in Hok. rewrite !andb_true_iff in Hok.
  destruct Hok as ((((H1 & H2) & H3) & H4) & H5). apply Nat.ltb_lt in H1, H2. apply Nat.eqb_eq in H3.
  rewrite forallb_forall in H4, H5.
  assert (H5' : forall i, i < hs_n d -> hs_y d i < k /\ length (hs_X d i) = hs_dim d).
  { intros i Hi. specialize (H5 i ltac:(apply in_seq; lia)). apply andb_true_iff in H5 as [A B]. apply Nat.ltb_lt in A. apply Nat.eqb_eq in B. auto. }
  assert (Hz : zpok k prior) by (split; auto; apply Forall_forall; intros a Ha; apply Z.ltb_lt; auto).
  split.
  - split; [apply sort_R_sorts|]. split; [apply Hpp_R; auto|]. split; [simpl; rewrite <- Q2R_0; apply Qle_Rle; auto|].
    split; [|split; [reflexivity|]].
    + split; [exact H1|]. split; [exact H2|]. intros i Hi. cbn [hsetR hs_X]. unfold vecR. rewrite map_length. apply H5'. auto.
    + destruct (zpok_R k prior Hz) as [A B]. split; auto. split; auto. intros i Hi. exists (hs_y d i). split; auto. apply H5'. auto.
  - rewrite <- (hclf_delta vecR sort_R cands h _ 0). unfold hclf_fit, hyper_fit, h.
    cbn [with_delta h_pp h_delta h_prior h_prec h_prune]. unfold hexec, hyper_fit in E.
    change (hs_n (hsetR d)) with (hs_n d). change (hs_dim (hsetR d)) with (hs_dim d).
    rewrite (hfit_Q k pp prec Hpp d cands) ; auto.
    + destruct (hfit _ _ _ _ _ _ _ _ _ _ _ _) as [t0|e]; [|discriminate]. cbn [rbind] in *.
      destruct prn; [|injection E as <-; reflexivity]. rewrite prune_correct in E. rewrite prune_correct, prune_htreeR. injection E as <-. reflexivity.
    + intros i Hi. apply H5'. auto.
    + lia.
    + destruct (hs_n d); [lia|discriminate].
    + intros i Hi. apply in_seq in Hi. lia.
Qed.
