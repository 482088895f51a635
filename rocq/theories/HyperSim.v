(** * HyperSim: hyperplane trees of training sets whose targets correspond (C50, C51). *)
From Coq Require Import Reals Permutation Sorted Lra.
From Verif Require Import Prelude Lists Tree Perp RealOps Clf Reg Api Hyper Spec FitProofs OptSpec OptProofs Transport ClfSpec RegSpec
  ApiSpec HyperSpec ClfProofs RegProofs PruneProofs NodeFacts SplitFacts PredictProofs
  Equiv HyperProofs HyperOpt HyperDist HyperApi HyperLemmas HyperMoreSpec Sphere Optim OptimFit OptimLemmas NonfiniteSpec OptimShift.
Local Open Scope nat_scope.

(** Same shape and same splits; attributes and scores related. *)
Section Rel.
Context {D S S' P P' : Type}.
Variable Rs : nat -> S -> S' -> Prop.
Variable Rp : P -> P' -> Prop.
Inductive htree_rel : tree D S P -> tree D S' P' -> Prop :=
| htree_rel_leaf i i' : info_rel Rp i i' -> htree_rel (Leaf i) (Leaf i')
| htree_rel_split i i' s a a' b b' c1 c1' c2 c2' :
    info_rel Rp i i' -> Rs (i_n_data i) a a' -> Rs (i_n_data i) b b' ->
    htree_rel c1 c1' -> htree_rel c2 c2' ->
    htree_rel (Split i s a b c1 c2) (Split i' s a' b' c1' c2').

Lemma htree_rel_skeleton t t' : htree_rel t t' -> skeleton t' = skeleton t.
Proof.
  induction 1 as [i i' H|i i' s a a' b b' c1 c1' c2 c2' H Ha Hb H1 IH1 H2 IH2]; simpl;
    destruct H as (_ & -> & -> & -> & _); f_equal; auto.
Qed.
Lemma htree_rel_lookup {O O'} (Ro : O -> O' -> Prop) (val : ninfo P -> O) (val' : ninfo P' -> O') go1 go2 r :
  (forall i i', info_rel Rp i i' -> Ro (val i) (val' i')) ->
  forall t t', htree_rel t t' -> opt_rel Ro (lookup go1 go2 val t r) (lookup go1 go2 val' t' r).
Proof.
  intros Hv. induction 1 as [i i' H|i i' s a a' b b' c1 c1' c2 c2' H Ha Hb H1 IH1 H2 IH2]; cbn [lookup].
  - simpl. auto.
  - destruct (go2 _ r), (go1 _ r); destruct (lookup go1 go2 val c2 r), (lookup go1 go2 val' c2' r); simpl in *; auto; contradiction.
Qed.
Lemma htree_rel_prune (same : ninfo P -> ninfo P -> bool) (same' : ninfo P' -> ninfo P' -> bool) :
  (forall i j i' j', info_rel Rp i i' -> info_rel Rp j j' -> same i j = same' i' j') ->
  forall t t', htree_rel t t' -> htree_rel (prune_bu same t) (prune_bu same' t').
Proof.
  intros Hs. induction 1 as [i i' Hi|i i' s a a' b b' c1 c1' c2 c2' Hi Ha Hb H1 IH1 H2 IH2]; [constructor; auto|].
  cbn [prune_bu]. destruct IH1 as [i1 i1' Hi1|]; [destruct IH2 as [i2 i2' Hi2|]|].
  - rewrite <- (Hs i1 i2 i1' i2') by auto. destruct (same i1 i2); constructor; auto; constructor; auto.
  - constructor; auto; constructor; auto.
  - constructor; auto; constructor; auto.
Qed.
End Rel.

Lemma argmax_rel {S S'} (Q : S -> S' -> Prop) (gt : S -> S -> bool) (gt' : S' -> S' -> bool) :
  (forall a a' b b', Q a a' -> Q b b' -> gt a b = gt' a' b') ->
  forall l l', Forall2 Q l l' -> argmax gt l = argmax gt' l'.
Proof.
  intros H. assert (G : forall l l', Forall2 Q l l' -> forall b b' ib i, Q b b' -> argmax_from gt b ib i l = argmax_from gt' b' ib i l').
  { induction 1 as [|s s' l l' Hs Hl IH]; intros b b' ib i Hb; cbn [argmax_from]; auto. rewrite (H s s' b b') by auto. destruct (gt' s' b'); auto. }
  intros l l' [|s s' m m' Hs Hm]; cbn [argmax]; auto.
Qed.

Lemma Forall2_map_in {A B B'} (Q : B -> B' -> Prop) (f : A -> B) (g : A -> B') l : (forall x, In x l -> Q (f x) (g x)) -> Forall2 Q (map f l) (map g l).
Proof. induction l as [|x l IH]; intros H; cbn; constructor; [apply H; left; auto|apply IH; intros; apply H; right; auto]. Qed.
Lemma Forall2_nth_opt {B B'} (Q : B -> B' -> Prop) l l' k : Forall2 Q l l' ->
  match nth_error l k, nth_error l' k with Some a, Some a' => Q a a' | None, None => True | _, _ => False end.
Proof. intros H. revert k. induction H as [|a a' l l' Ha Hl IH]; intros [|k]; cbn; auto; apply IH. Qed.

Section Sim.
Context {C P P' : Type}.
Variable pre : C -> list R.
Variable prec : R.
Variable srt : (nat -> R) -> nat -> list nat.
Hypothesis Hsrt : sorts Rleb srt.
Variable L : lik R P R.
Variable L' : lik R P' R.
Variable T : tgt R P R.
Variable T' : tgt R P' R.
Variables (Pok : P -> Prop) (Pok' : P' -> Prop) (Yok Yok' : R -> Prop).
Hypothesis law : lik_law L T Pok Yok.
Hypothesis law' : lik_law L' T' Pok' Yok'.
Hypothesis Hge : forall a b, l_ge L a b = negb (l_gt L b a).
Hypothesis Hge' : forall a b, l_ge L' a b = negb (l_gt L' b a).
Variables (post : R -> P -> list R -> P) (post' : R -> P' -> list R -> P').
Hypothesis post0 : forall p ys, post 0 p ys = p.
Hypothesis post0' : forall p ys, post' 0 p ys = p.
Hypothesis prior_some : forall p n d, l_prior L (Some p) n d = p.
Hypothesis prior_some' : forall p n d, l_prior L' (Some p) n d = p.
Variable fy : R -> R.
Variable Rs : nat -> R -> R -> Prop.
Variable Rp : P -> P' -> Prop.
Hypothesis HT : tgt_rel T T' Yok fy Rs Rp.
Hypothesis Hfy : forall v, Yok v -> Yok' (fy v).
Variable X : nat -> list R.
Variable y : nat -> R.
Variables n n_dim : nat.
Hypothesis Hdim : n_dim <> 0.
Hypothesis Hy : forall i, i < n -> Yok (y i).
Notation y' := (fun i => fy (y i)).
Notation G := (geo_R pre prec srt).
Notation lt_n rows := (Forall (fun i => i < n) rows).

Lemma gt_rel m a a' b b' : Rs m a a' -> Rs m b b' -> l_gt L a b = l_gt L' a' b'.
Proof.
  intros Ha Hb. pose proof (tr_gt _ _ _ _ _ _ HT m a a' b b' Ha Hb) as H.
  destruct (l_gt L a b) eqn:E, (l_gt L' a' b') eqn:E'; auto.
  - apply (ll_gt _ _ _ _ law) in E. apply H, (ll_gt _ _ _ _ law') in E. congruence.
  - apply (ll_gt _ _ _ _ law') in E'. apply H, (ll_gt _ _ _ _ law) in E'. congruence.
Qed.
Lemma yok_rows rows : lt_n rows -> Forall Yok (map y rows).
Proof. intros H. apply Forall_forall. intros v Hv. apply in_map_iff in Hv as (i & <- & Hi). rewrite Forall_forall in H. auto. Qed.
Lemma yok_rows' rows : lt_n rows -> Forall Yok' (map y' rows).
Proof. intros H. apply Forall_forall. intros v Hv. apply in_map_iff in Hv as (i & <- & Hi). rewrite Forall_forall in H. auto. Qed.

Definition state_rel (m : nat) (st st' : hopt (list R) (list R) R R) : Prop :=
  o_evals st' = o_evals st /\ Rs m (o_best st) (o_best st') /\ o_dist st' = o_dist st /\ o_plane st' = o_plane st.

Lemma compute_sim lvl q q' rows ns ns' st st' c : Pok q -> Pok' q' -> Rp q q' -> lt_n rows ->
  Rs (length rows) ns ns' -> state_rel (length rows) st st' ->
  state_rel (length rows) (fst (opt_compute G L X y n_dim lvl q rows ns st c)) (fst (opt_compute G L' X y' n_dim lvl q' rows ns' st' c)) /\
  Rs (length rows) (snd (opt_compute G L X y n_dim lvl q rows ns st c)) (snd (opt_compute G L' X y' n_dim lvl q' rows ns' st' c)).
Proof.
  intros Hq Hq' Hp Hr Hns (S1 & S2 & S3 & S4). unfold opt_compute. cbn [g_argsort geo_R]. set (nrm := g_unit G c).
  set (ks := split_positions _ _). set (ord := srt _ _).
  set (ysr := map (fun k => y (nth k rows 0)) ord).
  assert (Eys : map (fun k => fy (y (nth k rows 0))) ord = map fy ysr) by (unfold ysr; rewrite map_map; auto). rewrite Eys.
  assert (Hks : forall k, In k ks -> 1 <= k < length rows).
  { intros k Hk. apply (positions_candidate prec X n_dim Hdim rows nrm k) in Hk. apply Hk. }
  assert (Hord : Permutation ord (seq 0 (length rows))) by (apply Hsrt).
  assert (Hlen : length ysr = length rows) by (unfold ysr; rewrite map_length, (Permutation_length Hord), seq_length; auto).
  assert (HY : Forall Yok ysr).
  { apply Forall_forall. intros v Hv. apply in_map_iff in Hv as (k & <- & Hk). apply (Permutation_in _ Hord) in Hk. apply in_seq in Hk.
    apply Hy. rewrite Forall_forall in Hr. apply Hr, nth_In. lia. }
  assert (HY' : Forall Yok' (map fy ysr)).
  { apply Forall_forall. intros v Hv. apply in_map_iff in Hv as (w & <- & Hw). rewrite Forall_forall in HY. auto. }
  assert (Hsorted : StronglySorted lt ks) by apply split_positions_sorted.
  assert (Hst1 : state_rel (length rows) (mkOpt (1 + o_evals st) (o_best st) (o_dist st) (o_plane st)) (mkOpt (1 + o_evals st') (o_best st') (o_dist st') (o_plane st'))).
  { repeat split; cbn; auto. }
  clearbody ks. destruct ks as [|k0 ks0]; [split; auto|]. set (ks := k0 :: ks0) in *.
  rewrite (ll_split _ _ _ _ law lvl q n_dim ysr ks Hq HY Hdim Hsorted ltac:(rewrite Hlen; auto)).
  rewrite (ll_split _ _ _ _ law' lvl q' n_dim (map fy ysr) ks Hq' HY' Hdim Hsorted ltac:(rewrite map_length, Hlen; auto)).
  set (lp := map (fun k => t_cut T lvl q n_dim (length ks) (firstn k ysr) (skipn k ysr)) ks).
  set (lp' := map (fun k => t_cut T' lvl q' n_dim (length ks) (firstn k (map fy ysr)) (skipn k (map fy ysr))) ks).
  assert (Hcut : forall k, In k ks -> Rs (length rows) (t_cut T lvl q n_dim (length ks) (firstn k ysr) (skipn k ysr))
     (t_cut T' lvl q' n_dim (length ks) (firstn k (map fy ysr)) (skipn k (map fy ysr)))).
  { intros k Hk. apply Hks in Hk as Hb. rewrite firstn_map, skipn_map.
    replace (length rows) with (length (firstn k ysr) + length (skipn k ysr)) by (rewrite <- app_length, firstn_skipn; auto).
    apply (tr_cut _ _ _ _ _ _ HT); auto.
    - eapply Forall_forall. intros v Hv. rewrite Forall_forall in HY. apply HY. rewrite <- (firstn_skipn k ysr). apply in_or_app. auto.
    - eapply Forall_forall. intros v Hv. rewrite Forall_forall in HY. apply HY. rewrite <- (firstn_skipn k ysr). apply in_or_app. auto.
    - intros E. apply (f_equal (@length R)) in E. rewrite firstn_length in E. cbn in E. lia.
    - intros E. apply (f_equal (@length R)) in E. rewrite skipn_length in E. cbn in E. lia.
    - discriminate. }
  assert (Hlp : Forall2 (Rs (length rows)) lp lp') by (apply Forall2_map_in; exact Hcut).
  assert (Ei : l_argmax L lp = l_argmax L' lp').
  { rewrite (ll_argmax _ _ _ _ law), (ll_argmax _ _ _ _ law'). eapply argmax_rel; [|exact Hlp]. intros; eapply gt_rel; eauto. }
  rewrite <- Ei. pose proof (Forall2_nth_opt _ _ _ (l_argmax L lp) Hlp) as Hn.
  destruct (nth_error lp (l_argmax L lp)) as [a|], (nth_error lp' (l_argmax L lp)) as [a'|]; simpl in Hn; try contradiction; [|split; auto].
  destruct (nth_error ks (l_argmax L lp)) as [k|]; [|split; auto].
  cbn [o_best o_dist o_evals o_plane]. rewrite Hge, Hge', (gt_rel _ _ _ _ _ S2 Hn), (gt_rel _ _ _ _ _ Hn S2), S3.
  destruct (l_gt L' (o_best st') a'); cbn [negb]; [repeat split; cbn; auto|].
  destruct (l_gt L' a' (o_best st')); [|match goal with |- context [if ?b then _ else _] => destruct b end]; repeat split; cbn; auto.
Qed.
Lemma run_sim lvl q q' rows ns ns' cs : Pok q -> Pok' q' -> Rp q q' -> lt_n rows -> Rs (length rows) ns ns' ->
  state_rel (length rows) (opt_run G L X y n_dim lvl q rows ns cs) (opt_run G L' X y' n_dim lvl q' rows ns' cs).
Proof.
  intros Hq Hq' Hp Hr Hns. unfold opt_run.
  assert (H0 : state_rel (length rows) (opt_init G ns) (opt_init G ns')) by (repeat split; auto).
  revert H0. generalize (opt_init G ns) as st, (opt_init G ns') as st'.
  induction cs as [|c cs IH]; intros st st' H; cbn [fold_left]; auto. apply IH. eapply compute_sim; eauto.
Qed.

Lemma many_rel ys : Forall Yok ys -> ys <> [] -> Forall Yok' (map fy ys) -> l_many L ys = l_many L' (map fy ys).
Proof.
  intros H Hne H'. pose proof (tr_many _ _ _ _ _ _ HT ys H) as Hm.
  assert (Hne' : map fy ys <> []) by (destruct ys; [congruence|discriminate]).
  pose proof (ll_many _ _ _ _ law ys H Hne) as A. pose proof (ll_many _ _ _ _ law' (map fy ys) H' Hne') as B.
  destruct (l_many L ys) eqn:E, (l_many L' (map fy ys)) eqn:E'; auto; try (exfalso; tauto).
  - assert (false = true) by tauto. congruence.
  - assert (false = true) by tauto. congruence.
Qed.
Lemma post_rel q q' rows : Pok q -> Pok' q' -> Rp q q' -> lt_n rows -> rows <> [] ->
  Rp (l_post L q (map y rows)) (l_post L' q' (map y' rows)).
Proof.
  intros Hq Hq' Hp Hr Hne. pose proof (yok_rows rows Hr) as HY. pose proof (yok_rows' rows Hr) as HY'.
  assert (N : map y rows <> []) by (destruct rows; [congruence|discriminate]).
  assert (N' : map y' rows <> []) by (destruct rows; [congruence|discriminate]).
  rewrite (ll_post _ _ _ _ law), (ll_post _ _ _ _ law') by auto.
  replace (map y' rows) with (map fy (map y rows)) by apply map_map. apply (tr_post _ _ _ _ _ _ HT); auto.
Qed.
Lemma stop_rel lvl q q' rows : Pok q -> Pok' q' -> Rp q q' -> lt_n rows -> rows <> [] ->
  Rs (length rows) (l_no_split L lvl q (map y rows)) (l_no_split L' lvl q' (map y' rows)).
Proof.
  intros Hq Hq' Hp Hr Hne. pose proof (yok_rows rows Hr) as HY. pose proof (yok_rows' rows Hr) as HY'.
  assert (N : map y rows <> []) by (destruct rows; [congruence|discriminate]).
  assert (N' : map y' rows <> []) by (destruct rows; [congruence|discriminate]).
  rewrite (ll_stop _ _ _ _ law), (ll_stop _ _ _ _ law') by auto.
  replace (map y' rows) with (map fy (map y rows)) by apply map_map.
  replace (length rows) with (length (map y rows)) by apply map_length. apply (tr_stop _ _ _ _ _ _ HT); auto.
Qed.

(** Both results are errors or related trees. *)
Definition res_rel (r : res (tree (plane (list R) (list R)) R P)) (r' : res (tree (plane (list R) (list R)) R P')) : Prop :=
  match r, r' with Ok t, Ok t' => htree_rel Rs Rp t t' | Err e, Err e' => e = e' | _, _ => False end.

Section Tree.
Variable child : bool -> P -> list nat -> res (tree (plane (list R) (list R)) R P).
Variable child' : bool -> P' -> list nat -> res (tree (plane (list R) (list R)) R P').
Lemma node_sim lvl pa pa' q q' rows st st' : Pok q -> Pok' q' -> Rp q q' -> opt_rel Rp pa pa' -> lt_n rows -> rows <> [] ->
  state_rel (length rows) st st' ->
  (forall b rs, lt_n rs -> rs <> [] -> res_rel (child b q rs) (child' b q' rs)) ->
  let inf := mkInfo pa lvl (length rows) (Some n_dim) (l_post L q (map y rows)) in
  let inf' := mkInfo pa' lvl (length rows) (Some n_dim) (l_post L' q' (map y' rows)) in
  let ch b prior rs := if (1 <? length rs) && l_many L (map y rs) then child b prior rs
        else Ok (Leaf (mkInfo (Some prior) (lvl + 1) (length rs) None (l_post L q (map y rs)))) in
  let ch' b prior rs := if (1 <? length rs) && l_many L' (map y' rs) then child' b prior rs
        else Ok (Leaf (mkInfo (Some prior) (lvl + 1) (length rs) None (l_post L' q' (map y' rs)))) in
  res_rel
   (match o_plane st with
    | None => Ok (Leaf inf)
    | Some pl =>
      let rows1 := filter (fun i => g_back G (p_normal pl) (p_origin pl) (X i)) rows in
      let rows2 := filter (fun i => g_front G (p_normal pl) (p_origin pl) (X i)) rows in
      if (0 <? length rows1) && (0 <? length rows2) then
        rbind (ch false (post 0 q (map y rows1)) rows1) (fun c1 => rbind (ch true (post 0 q (map y rows2)) rows2) (fun c2 =>
        Ok (Split inf pl (l_no_split L lvl q (map y rows)) (o_best st) c1 c2)))
      else Ok (Leaf inf)
    end)
   (match o_plane st' with
    | None => Ok (Leaf inf')
    | Some pl =>
      let rows1 := filter (fun i => g_back G (p_normal pl) (p_origin pl) (X i)) rows in
      let rows2 := filter (fun i => g_front G (p_normal pl) (p_origin pl) (X i)) rows in
      if (0 <? length rows1) && (0 <? length rows2) then
        rbind (ch' false (post' 0 q' (map y' rows1)) rows1) (fun c1 => rbind (ch' true (post' 0 q' (map y' rows2)) rows2) (fun c2 =>
        Ok (Split inf' pl (l_no_split L' lvl q' (map y' rows)) (o_best st') c1 c2)))
      else Ok (Leaf inf')
    end).
Proof.
  intros Hq Hq' Hp Hpa Hr Hne (S1 & S2 & S3 & S4) Hc. cbv zeta. rewrite S4.
  set (inf := mkInfo pa _ _ _ _). set (inf' := mkInfo pa' _ _ _ _).
  assert (Hinf : info_rel Rp inf inf') by (repeat split; auto; apply post_rel; auto).
  destruct (o_plane st) as [pl|]; [|constructor; auto].
  set (rows1 := filter (fun i => g_back G _ _ (X i)) rows). set (rows2 := filter (fun i => g_front G _ _ (X i)) rows).
  assert (Hf : forall f : nat -> bool, lt_n (filter f rows)).
  { intros f. rewrite Forall_forall in *. intros i Hi. apply filter_In in Hi. apply Hr, Hi. }
  destruct (0 <? length rows1) eqn:E1; cbn [andb]; [|constructor; auto].
  destruct (0 <? length rows2) eqn:E2; [|constructor; auto].
  apply Nat.ltb_lt in E1, E2.
  rewrite !post0, !post0'.
  assert (Hch : forall b rs, lt_n rs -> rs <> [] ->
    res_rel (if (1 <? length rs) && l_many L (map y rs) then child b q rs
        else Ok (Leaf (mkInfo (Some q) (lvl + 1) (length rs) None (l_post L q (map y rs)))))
      (if (1 <? length rs) && l_many L' (map y' rs) then child' b q' rs
        else Ok (Leaf (mkInfo (Some q') (lvl + 1) (length rs) None (l_post L' q' (map y' rs)))))).
  { intros b rs Hrs Hnn.
    replace (l_many L' (map y' rs)) with (l_many L (map y rs)).
    2:{ replace (map y' rs) with (map fy (map y rs)) by apply map_map. apply many_rel; auto using yok_rows.
        - destruct rs; [congruence|discriminate].
        - rewrite map_map. apply yok_rows'; auto. }
    destruct (_ && _); auto. constructor. repeat split; auto. apply post_rel; auto. }
  assert (N1 : rows1 <> []) by (destruct rows1; [cbn in E1; lia|discriminate]).
  assert (N2 : rows2 <> []) by (destruct rows2; [cbn in E2; lia|discriminate]).
  pose proof (Hch false rows1 (Hf _) N1) as R1. pose proof (Hch true rows2 (Hf _) N2) as R2.
  match type of R1 with res_rel ?r ?r' => destruct r as [c1|e1], r' as [c1'|e1'] end; cbn [res_rel rbind] in *; try contradiction; auto.
  match type of R2 with res_rel ?r ?r' => destruct r as [c2|e2], r' as [c2'|e2'] end; cbn [res_rel rbind] in *; try contradiction; auto.
  constructor; auto. apply stop_rel; auto.
Qed.
End Tree.

Lemma hfit_sim cands : forall fuel lvl path pa pa' rows,
  Pok (l_prior L pa (length rows) n_dim) -> Pok' (l_prior L' pa' (length rows) n_dim) ->
  Rp (l_prior L pa (length rows) n_dim) (l_prior L' pa' (length rows) n_dim) -> opt_rel Rp pa pa' -> lt_n rows -> rows <> [] ->
  res_rel (hfit G L post X y n_dim cands fuel lvl path pa rows) (hfit G L' post' X y' n_dim cands fuel lvl path pa' rows).
Proof.
  induction fuel as [|fuel IH]; intros lvl path pa pa' rows Hq Hq' Hp Hpa Hr Hne; [reflexivity|]. cbn [hfit].
  set (q := l_prior L pa (length rows) n_dim) in *. set (q' := l_prior L' pa' (length rows) n_dim) in *.
  apply (node_sim (fun b p rs => hfit G L post X y n_dim cands fuel (lvl + 1) (path ++ [b]) (Some p) rs)
     (fun b p rs => hfit G L' post' X y' n_dim cands fuel (lvl + 1) (path ++ [b]) (Some p) rs)); auto.
  - apply run_sim; auto. apply stop_rel; auto.
  - intros b rs Hrs Hnn. apply IH; rewrite ?prior_some, ?prior_some'; auto.
Qed.
Lemma hfit_with_sim solve solve' :
  (forall lvl q q' rows ns ns', Pok q -> Pok' q' -> Rp q q' -> lt_n rows -> Rs (length rows) ns ns' -> solve' lvl q' rows ns' = solve lvl q rows ns) ->
  forall fuel lvl pa pa' rows,
  Pok (l_prior L pa (length rows) n_dim) -> Pok' (l_prior L' pa' (length rows) n_dim) ->
  Rp (l_prior L pa (length rows) n_dim) (l_prior L' pa' (length rows) n_dim) -> opt_rel Rp pa pa' -> lt_n rows -> rows <> [] ->
  res_rel (hfit_with G L post X y n_dim solve fuel lvl pa rows) (hfit_with G L' post' X y' n_dim solve' fuel lvl pa' rows).
Proof.
  intros Hsol. induction fuel as [|fuel IH]; intros lvl pa pa' rows Hq Hq' Hp Hpa Hr Hne; [reflexivity|]. cbn [hfit_with].
  set (q := l_prior L pa (length rows) n_dim) in *. set (q' := l_prior L' pa' (length rows) n_dim) in *.
  rewrite (Hsol lvl q q' rows _ _ Hq Hq' Hp Hr (stop_rel lvl q q' rows Hq Hq' Hp Hr Hne)).
  destruct (solve lvl q rows _) as [cs|e]; [|reflexivity]. cbn [rbind].
  apply (node_sim (fun b p rs => hfit_with G L post X y n_dim solve fuel (lvl + 1) (Some p) rs)
     (fun b p rs => hfit_with G L' post' X y' n_dim solve' fuel (lvl + 1) (Some p) rs)); auto.
  - apply run_sim; auto. apply stop_rel; auto.
  - intros b rs Hrs Hnn. apply IH; rewrite ?prior_some, ?prior_some'; auto.
Qed.
End Sim.

Lemma clf_ge pp delta a b : l_ge (clf_lik pp delta) a b = negb (l_gt (clf_lik pp delta) b a).
Proof. cbn. unfold Rgeb, Rgtb. destruct (Rleb b a) eqn:E, (Rltb a b) eqn:E'; auto; [apply Rleb_true in E; apply Rltb_true in E'|apply Rleb_false in E; apply Rltb_false in E']; lra. Qed.
Lemma reg_ge pp delta a b : l_ge (reg_lik pp delta) a b = negb (l_gt (reg_lik pp delta) b a).
Proof. exact (clf_ge pp delta a b). Qed.
Lemma seq_lt n : Forall (fun i => i < n) (seq 0 n).
Proof. apply Forall_forall. intros i Hi. apply in_seq in Hi. lia. Qed.
Lemma seq_ne n : 0 < n -> seq 0 n <> [].
Proof. destruct n; [lia|discriminate]. Qed.

(** ** C50 *)
Lemma permuted_pos k pi prior prior' : class_perm k pi -> permuted k pi prior prior' -> clf_pok k prior -> clf_pok k prior'.
Proof.
  intros Hpi (L & L' & Hc) (_ & Hpos). split; auto. rewrite Forall_forall in *. intros x Hx.
  apply (In_nth _ _ 0%R) in Hx as (j & Hj & <-). rewrite L' in Hj.
  assert (Hin : In j (map pi (seq 0 k))).
  { eapply Permutation_in; [symmetry; apply class_perm_perm; auto|]. apply in_seq. lia. }
  apply in_map_iff in Hin as (c & <- & Hin). apply in_seq in Hin. rewrite Hc by lia.
  apply Hpos. apply nth_In. rewrite L. lia.
Qed.
Lemma relabel_answers k pi (t t' : hctree) : class_perm k pi -> htree_rel (fun _ => eq) (permuted k pi) t t' ->
  skeleton t' = skeleton t /\ forall Xq m q p, nth_error (hclf_predict_proba t Xq m) q = Some (Some p) ->
    exists p', nth_error (hclf_predict_proba t' Xq m) q = Some (Some p') /\ permuted k pi p p'.
Proof.
  intros Hpi Hr. split; [eapply htree_rel_skeleton; eauto|].
  intros Xq m q p. unfold hclf_predict_proba. rewrite !predict_rows_spec, !nth_error_map.
  destruct (nth_error (seq 0 m) q) as [r|]; simpl; [|discriminate].
  assert (Hv : forall i i' : ninfo (list R), info_rel (permuted k pi) i i' ->
     permuted_row k pi (Some (clf_posterior_mean (i_post i))) (Some (clf_posterior_mean (i_post i')))).
  { intros i i' (_ & _ & _ & _ & Hq). pose proof Hq as (L & L' & Hc).
    unfold permuted_row, opt_rel, clf_posterior_mean. split; [rewrite map_length; auto|split; [rewrite map_length; auto|]].
    intros c Hcc. rewrite (permuted_sum k pi Hpi _ _ Hq).
    rewrite (nth_indep _ 0%R (0 / vsum (i_post i))%R) by (rewrite map_length, L'; apply Hpi; auto).
    rewrite (nth_indep (map _ (i_post i)) 0%R (0 / vsum (i_post i))%R) by (rewrite map_length, L; auto).
    rewrite !(map_nth (fun a => (a / vsum (i_post i))%R)), Hc by auto. reflexivity. }
  pose proof (htree_rel_lookup _ _ _ _ _ (behind Xq) (before Xq) r Hv _ _ Hr) as Hl.
  destruct (lookup _ _ _ t r) as [o|], (lookup _ _ _ t' r) as [o'|]; simpl in Hl; try contradiction; [|discriminate].
  intros Eo. injection Eo as ->. destruct o' as [p'|]; [|contradiction]. exists p'. auto.
Qed.
Lemma hclf_fit_relabel {C} (pre : C -> list R) srt cands k prior prior' h h' d pi t : hclf_setting srt k prior h d ->
  class_perm k pi -> permuted k pi prior prior' -> h_prune h = false ->
  h' = mkHyper (h_pp h) (Some prior') (h_delta h) false (h_prec h) ->
  hclf_fit pre srt cands h d = Ok t ->
  exists t', hclf_fit pre srt cands h' (hmap_target (relabel pi) d) = Ok t' /\ skeleton t' = skeleton t /\
    forall Xq m q p, nth_error (hclf_predict_proba t Xq m) q = Some (Some p) ->
      exists p', nth_error (hclf_predict_proba t' Xq m) q = Some (Some p') /\ permuted k pi p p'.
Proof.
  intros H Hpi Hp Hn -> E. apply hclf_parts in H as (Hs & Hprec & Hd & Hpr & Hok & Hk & Hy).
  rewrite <- (hclf_delta pre srt cands h d 0) in E.
  change (hclf_fit pre srt cands (mkHyper (h_pp h) (Some prior') (h_delta h) false (h_prec h)) (hmap_target (relabel pi) d))
    with (hclf_fit pre srt cands (mkHyper (h_pp h) (Some prior') 0 false (h_prec h)) (hmap_target (relabel pi) d)).
  unfold hclf_fit, hyper_fit in *. cbn [with_delta h_pp h_delta h_prior h_prec h_prune hmap_target hs_n hs_dim hs_X hs_y] in *. rewrite Hn in E. rewrite Hpr in E.
  assert (Hdd : hs_dim d <> 0) by (destruct Hd as (_ & ? & _); lia).
  pose proof (hfit_sim pre (h_prec h) srt Hs (clf_lik (h_pp h) 0) (clf_lik (h_pp h) 0) (clf_tgt (h_pp h) 0) (clf_tgt (h_pp h) 0)
    (clf_pok k) (clf_pok k) (clf_yok k) (clf_yok k) (clf_law k _ _ (Rle_refl 0)) (clf_law k _ _ (Rle_refl 0)) (clf_ge _ _) (clf_ge _ _)
    clf_posterior clf_posterior clf_posterior_0 clf_posterior_0 (fun _ _ _ => eq_refl) (fun _ _ _ => eq_refl) (relabel pi) (fun _ => eq) (permuted k pi)
    (clf_relabel_rel k pi Hpi _ _) (relabel_yok k pi Hpi) (hs_X d) (hs_y d) (hs_n d) (hs_dim d) Hdd Hy cands
    (S (hs_n d)) 0 [] (Some prior) (Some prior') (seq 0 (hs_n d)) Hok (permuted_pos k pi _ _ Hpi Hp Hok) Hp Hp (seq_lt _) (seq_ne _ (proj1 Hd))) as Hsim.
  destruct (hfit _ _ _ _ (hs_y d) _ _ _ _ _ _ _) as [t0|]; [|discriminate]. cbn [rbind] in E. injection E as ->.
  destruct (hfit _ _ _ _ _ _ _ _ _ _ _ _) as [t1|] in Hsim |- *; [|contradiction]. cbn [rbind res_rel] in *.
  exists t1. split; auto. apply relabel_answers; auto.
Qed.

(** With the optimizers that do not look at the targets themselves. *)
Definition target_blind (o : optimizer) : Prop := match o with RandomTwoPoint _ _ => False | _ => True end.
Lemma relabel_solve srt k pi (h : hyper (list R)) d o fuel : sorts Rleb srt -> class_perm k pi -> hs_dim d <> 0 -> (forall i, i < hs_n d -> clf_yok k (hs_y d i)) -> target_blind o ->
  forall lvl q q' rows ns ns', clf_pok k q -> clf_pok k q' -> permuted k pi q q' -> Forall (fun i => i < hs_n d) rows -> ns = ns' ->
  solve_node (clf_lik (h_pp h) 0) (h_prec h) srt (hs_X d) (fun i => relabel pi (hs_y d i)) (hs_dim d) o fuel lvl q' rows ns' =
  solve_node (clf_lik (h_pp h) 0) (h_prec h) srt (hs_X d) (hs_y d) (hs_dim d) o fuel lvl q rows ns.
Proof.
  intros Hs Hpi Hdd Hy Ho lvl q q' rows ns ns' Hq Hq' Hp Hr Hns.
  assert (Hv : forall v, vector_value (P := list R) (clf_lik (h_pp h) 0) (h_prec h) srt (hs_X d) (fun i => relabel pi (hs_y d i)) (hs_dim d) lvl q' rows ns' v =
    vector_value (clf_lik (h_pp h) 0) (h_prec h) srt (hs_X d) (hs_y d) (hs_dim d) lvl q rows ns v).
  { intros v. unfold vector_value. cbv zeta. f_equal. symmetry.
    refine (proj2 (compute_sim (fun c => c) (h_prec h) srt Hs (clf_lik (h_pp h) 0) (clf_lik (h_pp h) 0) (clf_tgt (h_pp h) 0) (clf_tgt (h_pp h) 0)
    (clf_pok k) (clf_pok k) (clf_yok k) (clf_yok k) (clf_law k _ _ (Rle_refl 0)) (clf_law k _ _ (Rle_refl 0)) (clf_ge _ _) (clf_ge _ _)
    (relabel pi) (fun _ => eq) (permuted k pi)
    (clf_relabel_rel k pi Hpi _ _) (relabel_yok k pi Hpi) (hs_X d) (hs_y d) (hs_n d) (hs_dim d) Hdd Hy lvl q q' rows ns ns' _ _ v Hq Hq' Hp Hr Hns _)).
    repeat split; cbn; auto. }
  assert (Ec : cube_obj (P := list R) (clf_lik (h_pp h) 0) (h_prec h) srt (hs_X d) (fun i => relabel pi (hs_y d i)) (hs_dim d) lvl q' rows ns' =
    cube_obj (clf_lik (h_pp h) 0) (h_prec h) srt (hs_X d) (hs_y d) (hs_dim d) lvl q rows ns).
  { apply FunctionalExtensionality.functional_extensionality. intros p. unfold cube_obj. destruct (sphere true p); cbn; auto. rewrite Hv. auto. }
  assert (Ev : vector_obj (P := list R) (clf_lik (h_pp h) 0) (h_prec h) srt (hs_X d) (fun i => relabel pi (hs_y d i)) (hs_dim d) lvl q' rows ns' =
    vector_obj (clf_lik (h_pp h) 0) (h_prec h) srt (hs_X d) (hs_y d) (hs_dim d) lvl q rows ns).
  { apply FunctionalExtensionality.functional_extensionality. intros p. unfold vector_obj. rewrite Hv. auto. }
  unfold solve_node. rewrite Ec, Ev. destruct o; try contradiction; reflexivity.
Qed.
Lemma hclf_fit_opt_delta0 srt o fuel h d : hclf_fit_opt srt o fuel h d = hclf_fit_opt srt o fuel (with_delta 0 h) d.
Proof. reflexivity. Qed.
Lemma hclf_fit_opt_relabel srt o fuel k prior prior' h h' d pi t : hclf_setting srt k prior h d -> target_blind o ->
  class_perm k pi -> permuted k pi prior prior' -> h_prune h = false ->
  h' = mkHyper (h_pp h) (Some prior') (h_delta h) false (h_prec h) ->
  hclf_fit_opt srt o fuel h d = Ok t ->
  exists t', hclf_fit_opt srt o fuel h' (hmap_target (relabel pi) d) = Ok t' /\ skeleton t' = skeleton t /\
    forall Xq m q p, nth_error (hclf_predict_proba t Xq m) q = Some (Some p) ->
      exists p', nth_error (hclf_predict_proba t' Xq m) q = Some (Some p') /\ permuted k pi p p'.
Proof.
  intros H Ho Hpi Hp Hn -> E. apply hclf_parts in H as (Hs & Hprec & Hd & Hpr & Hok & Hk & Hy).
  rewrite hclf_fit_opt_delta0 in E |- *.
  unfold hclf_fit_opt, hyper_fit_opt in *. cbn [with_delta h_pp h_delta h_prior h_prec h_prune hmap_target hs_n hs_dim hs_X hs_y] in *. rewrite Hn in E. rewrite Hpr in E.
  assert (Hdd : hs_dim d <> 0) by (destruct Hd as (_ & ? & _); lia).
  pose proof (hfit_with_sim (normal_of o) (h_prec h) srt Hs (clf_lik (h_pp h) 0) (clf_lik (h_pp h) 0) (clf_tgt (h_pp h) 0) (clf_tgt (h_pp h) 0)
    (clf_pok k) (clf_pok k) (clf_yok k) (clf_yok k) (clf_law k _ _ (Rle_refl 0)) (clf_law k _ _ (Rle_refl 0)) (clf_ge _ _) (clf_ge _ _)
    clf_posterior clf_posterior clf_posterior_0 clf_posterior_0 (fun _ _ _ => eq_refl) (fun _ _ _ => eq_refl) (relabel pi) (fun _ => eq) (permuted k pi)
    (clf_relabel_rel k pi Hpi _ _) (relabel_yok k pi Hpi) (hs_X d) (hs_y d) (hs_n d) (hs_dim d) Hdd Hy _ _
    (relabel_solve srt k pi h d o fuel Hs Hpi Hdd Hy Ho)
    (S (hs_n d)) 0 (Some prior) (Some prior') (seq 0 (hs_n d)) Hok (permuted_pos k pi _ _ Hpi Hp Hok) Hp Hp (seq_lt _) (seq_ne _ (proj1 Hd))) as Hsim.
  destruct (hfit_with _ _ _ _ (hs_y d) _ _ _ _ _ _) as [t0|]; [|discriminate]. cbn [rbind] in E. injection E as ->.
  destruct (hfit_with _ _ _ _ _ _ _ _ _ _ _) as [t1|] in Hsim |- *; [|contradiction]. cbn [rbind res_rel] in *.
  exists t1. split; auto. apply relabel_answers; auto.
Qed.

(** ** C51 *)
Lemma scale_answers s c (prn : bool) t0 t1 t : (0 < s)%R -> htree_rel (fun m a a' => a' = (a - INR m * ln s)%R) (Rng s c) t0 t1 ->
  (if prn then prune reg_same t0 else Ok t0) = Ok t ->
  exists t' : hrtree, (if prn then prune reg_same t1 else Ok t1) = Ok t' /\ skeleton t' = skeleton t /\
    forall Xq m, hreg_predict t' Xq m = map (affine s c) (hreg_predict t Xq m).
Proof.
  intros Hs0 Hsim E.
  assert (Hsame : forall i j i' j', info_rel (Rng s c) i i' -> info_rel (Rng s c) j j' -> reg_same i j = reg_same i' j').
  { intros i j i' j' (_ & _ & _ & _ & _ & Ei) (_ & _ & _ & _ & _ & Ej). unfold reg_same, reg_predict_leaf.
    rewrite Ei, Ej. simpl. destruct (Reqb (ng_mu (i_post i)) (ng_mu (i_post j))) eqn:Eq.
    + apply Reqb_true in Eq. symmetry. apply Reqb_true. rewrite Eq. auto.
    + apply Reqb_false in Eq. symmetry. apply Reqb_false. intros Eq'. apply Eq. apply (Rmult_eq_reg_l s); lra. }
  assert (Hrel : exists t', (if prn then prune reg_same t1 else Ok t1) = Ok t' /\ htree_rel (fun m a a' => a' = (a - INR m * ln s)%R) (Rng s c) t t').
  { destruct prn.
    - rewrite prune_correct in *. injection E as <-. eexists. split; [reflexivity|]. apply htree_rel_prune; auto.
    - injection E as <-. eauto. }
  destruct Hrel as (t' & E' & Hr). exists t'. split; [exact E'|]. split; [eapply htree_rel_skeleton; eauto|].
  intros Xq m. unfold hreg_predict. rewrite !predict_rows_spec, map_map. apply map_ext. intros r.
  assert (Hv : forall i i', info_rel (Rng s c) i i' -> reg_predict_leaf (i_post i') = affine s c (reg_predict_leaf (i_post i))).
  { intros i i' (_ & _ & _ & _ & _ & ->). reflexivity. }
  pose proof (htree_rel_lookup _ _ (fun v v' => v' = affine s c v) _ _ (behind Xq) (before Xq) r Hv _ _ Hr) as Hl.
  destruct (lookup_reaches (behind Xq) (before Xq) (fun i => reg_predict_leaf (i_post i)) t r) as (l & _ & El).
  { intros; apply before_behind. }
  rewrite El in *. destruct (lookup _ _ _ t' r) as [v'|]; simpl in Hl; [auto|contradiction].
Qed.

Lemma scale_opt_solve s c srt (h : hyper ng) d o fuel : (0 < s)%R -> sorts Rleb srt -> hs_dim d <> 0 -> target_blind o ->
  forall lvl q q' rows ns ns', reg_pok q -> reg_pok q' -> Rng s c q q' -> Forall (fun i => i < hs_n d) rows -> (ns' = ns - INR (length rows) * ln s)%R ->
  solve_node (reg_lik (h_pp h) 0) (h_prec h) srt (hs_X d) (fun i => affine s c (hs_y d i)) (hs_dim d) o fuel lvl q' rows ns' =
  solve_node (reg_lik (h_pp h) 0) (h_prec h) srt (hs_X d) (hs_y d) (hs_dim d) o fuel lvl q rows ns.
Proof.
  intros Hs0 Hs Hdd Ho lvl q q' rows ns ns' Hq Hq' Hp Hr Hns.
  set (b := (INR (length rows) * ln s)%R) in *.
  assert (Hv : forall v, vector_value (P := ng) (reg_lik (h_pp h) 0) (h_prec h) srt (hs_X d) (fun i => affine s c (hs_y d i)) (hs_dim d) lvl q' rows ns' v =
    (vector_value (reg_lik (h_pp h) 0) (h_prec h) srt (hs_X d) (hs_y d) (hs_dim d) lvl q rows ns v + b)%R).
  { intros v. unfold vector_value. cbv zeta.
    assert (Hc := proj2 (compute_sim (fun c => c) (h_prec h) srt Hs (reg_lik (h_pp h) 0) (reg_lik (h_pp h) 0) (reg_tgt (h_pp h) 0) (reg_tgt (h_pp h) 0)
    reg_pok reg_pok (fun _ => True) (fun _ => True) (reg_law _ _ (Rle_refl 0)) (reg_law _ _ (Rle_refl 0)) (reg_ge _ _) (reg_ge _ _)
    (affine s c) (fun n a a' => a' = (a - INR n * ln s)%R) (Rng s c)
    (reg_scale_rel s c Hs0 _ _ (Rle_refl 0)) (fun _ _ => I) (hs_X d) (hs_y d) (hs_n d) (hs_dim d) Hdd (fun _ _ => I) lvl q q' rows ns ns'
    (opt_init (geo_R (fun c => c) (h_prec h) srt) ns) (opt_init (geo_R (fun c => c) (h_prec h) srt) ns') v Hq Hq' Hp Hr Hns
    (conj eq_refl (conj Hns (conj eq_refl eq_refl))))). cbv beta in Hc. fold b in Hc. rewrite Hc. lra. }
  assert (Ec : cube_obj (P := ng) (reg_lik (h_pp h) 0) (h_prec h) srt (hs_X d) (fun i => affine s c (hs_y d i)) (hs_dim d) lvl q' rows ns' =
    fun p => map_res (fun v => v + b)%R (cube_obj (reg_lik (h_pp h) 0) (h_prec h) srt (hs_X d) (hs_y d) (hs_dim d) lvl q rows ns p)).
  { apply FunctionalExtensionality.functional_extensionality. intros p. unfold cube_obj. destruct (sphere true p); cbn; auto. rewrite Hv. auto. }
  assert (Ev : vector_obj (P := ng) (reg_lik (h_pp h) 0) (h_prec h) srt (hs_X d) (fun i => affine s c (hs_y d i)) (hs_dim d) lvl q' rows ns' =
    fun p => map_res (fun v => v + b)%R (vector_obj (reg_lik (h_pp h) 0) (h_prec h) srt (hs_X d) (hs_y d) (hs_dim d) lvl q rows ns p)).
  { apply FunctionalExtensionality.functional_extensionality. intros p. unfold vector_obj. rewrite Hv. auto. }
  unfold solve_node. rewrite Ec, Ev. rewrite <- (run_shift b (cube_obj (reg_lik (h_pp h) 0) (h_prec h) srt (hs_X d) (hs_y d) (hs_dim d) lvl q rows ns)).
  destruct o; try contradiction; reflexivity.
Qed.
Lemma hreg_fit_target_scale s c {C} (pre : C -> list R) srt cands prior h h' d t : (0 < s)%R -> hreg_setting srt prior h d -> h_prior h = Some prior ->
  h' = mkHyper (h_pp h) (Some (scale_ng s c prior)) (h_delta h) (h_prune h) (h_prec h) ->
  hreg_fit pre srt cands h d = Ok t ->
  exists t', hreg_fit pre srt cands h' (hmap_target (affine s c) d) = Ok t' /\ skeleton t' = skeleton t /\
    forall Xq m, hreg_predict t' Xq m = map (affine s c) (hreg_predict t Xq m).
Proof.
  intros Hs0 H Hpr -> E. apply hreg_parts in H as (Hs & Hprec & Hd & Hok & _).
  rewrite <- (hreg_delta pre srt cands h d 0) in E.
  change (hreg_fit pre srt cands (mkHyper (h_pp h) (Some (scale_ng s c prior)) (h_delta h) (h_prune h) (h_prec h)) (hmap_target (affine s c) d))
    with (hreg_fit pre srt cands (mkHyper (h_pp h) (Some (scale_ng s c prior)) 0 (h_prune h) (h_prec h)) (hmap_target (affine s c) d)).
  unfold hreg_fit, hyper_fit in *. cbn [with_delta h_pp h_delta h_prior h_prec h_prune hmap_target hs_n hs_dim hs_X hs_y] in *. rewrite Hpr in E.
  assert (Hdd : hs_dim d <> 0) by (destruct Hd as (_ & ? & _); lia).
  assert (Hok' : reg_pok (scale_ng s c prior)).
  { destruct Hok as (A & B & D). repeat split; auto. simpl. apply Rmult_lt_0_compat; auto. nra. }
  pose proof (hfit_sim pre (h_prec h) srt Hs (reg_lik (h_pp h) 0) (reg_lik (h_pp h) 0) (reg_tgt (h_pp h) 0) (reg_tgt (h_pp h) 0)
    reg_pok reg_pok (fun _ => True) (fun _ => True) (reg_law _ _ (Rle_refl 0)) (reg_law _ _ (Rle_refl 0)) (reg_ge _ _) (reg_ge _ _)
    reg_posterior reg_posterior reg_posterior_0 reg_posterior_0 (fun _ _ _ => eq_refl) (fun _ _ _ => eq_refl) (affine s c) _ _
    (reg_scale_rel s c Hs0 _ _ (Rle_refl 0)) (fun _ _ => I) (hs_X d) (hs_y d) (hs_n d) (hs_dim d) Hdd (fun _ _ => I) cands
    (S (hs_n d)) 0 [] (Some prior) (Some (scale_ng s c prior)) (seq 0 (hs_n d)) Hok Hok' (conj Hok eq_refl) (conj Hok eq_refl) (seq_lt _) (seq_ne _ (proj1 Hd))) as Hsim.
  destruct (hfit _ _ _ _ (hs_y d) _ _ _ _ _ _ _) as [t0|]; [|discriminate]. cbn [rbind] in E.
  destruct (hfit _ _ _ _ _ _ _ _ _ _ _ _) as [t1|] in Hsim |- *; [|contradiction]. cbn [rbind res_rel] in *.
  eapply scale_answers; eauto.
Qed.
Lemma hreg_fit_opt_delta0 srt o fuel h d : hreg_fit_opt srt o fuel h d = hreg_fit_opt srt o fuel (with_delta 0 h) d.
Proof. reflexivity. Qed.
Lemma hreg_fit_opt_target_scale s c srt o fuel prior h h' d t : (0 < s)%R -> hreg_setting srt prior h d -> target_blind o -> h_prior h = Some prior ->
  h' = mkHyper (h_pp h) (Some (scale_ng s c prior)) (h_delta h) (h_prune h) (h_prec h) ->
  hreg_fit_opt srt o fuel h d = Ok t ->
  exists t', hreg_fit_opt srt o fuel h' (hmap_target (affine s c) d) = Ok t' /\ skeleton t' = skeleton t /\
    forall Xq m, hreg_predict t' Xq m = map (affine s c) (hreg_predict t Xq m).
Proof.
  intros Hs0 H Ho Hpr -> E. apply hreg_parts in H as (Hs & Hprec & Hd & Hok & _).
  rewrite hreg_fit_opt_delta0 in E |- *.
  unfold hreg_fit_opt, hyper_fit_opt in *. cbn [with_delta h_pp h_delta h_prior h_prec h_prune hmap_target hs_n hs_dim hs_X hs_y] in *. rewrite Hpr in E.
  assert (Hdd : hs_dim d <> 0) by (destruct Hd as (_ & ? & _); lia).
  assert (Hok' : reg_pok (scale_ng s c prior)).
  { destruct Hok as (A & B & D). repeat split; auto. simpl. apply Rmult_lt_0_compat; auto. nra. }
  pose proof (hfit_with_sim (normal_of o) (h_prec h) srt Hs (reg_lik (h_pp h) 0) (reg_lik (h_pp h) 0) (reg_tgt (h_pp h) 0) (reg_tgt (h_pp h) 0)
    reg_pok reg_pok (fun _ => True) (fun _ => True) (reg_law _ _ (Rle_refl 0)) (reg_law _ _ (Rle_refl 0)) (reg_ge _ _) (reg_ge _ _)
    reg_posterior reg_posterior reg_posterior_0 reg_posterior_0 (fun _ _ _ => eq_refl) (fun _ _ _ => eq_refl) (affine s c) _ _
    (reg_scale_rel s c Hs0 _ _ (Rle_refl 0)) (fun _ _ => I) (hs_X d) (hs_y d) (hs_n d) (hs_dim d) Hdd (fun _ _ => I) _ _
    (scale_opt_solve s c srt h d o fuel Hs0 Hs Hdd Ho)
    (S (hs_n d)) 0 (Some prior) (Some (scale_ng s c prior)) (seq 0 (hs_n d)) Hok Hok' (conj Hok eq_refl) (conj Hok eq_refl) (seq_lt _) (seq_ne _ (proj1 Hd))) as Hsim.
  destruct (hfit_with _ _ _ _ (hs_y d) _ _ _ _ _ _) as [t0|]; [|discriminate]. cbn [rbind] in E.
  destruct (hfit_with _ _ _ _ _ _ _ _ _ _ _) as [t1|] in Hsim |- *; [|contradiction]. cbn [rbind res_rel] in *.
  eapply scale_answers; eauto.
Qed.
