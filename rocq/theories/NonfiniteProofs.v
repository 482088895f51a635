(** * NonfiniteProofs: a target that is not a number turns the whole fit into one leaf that predicts no number. *)
From Coq Require Import Reals Permutation Lra.
From Verif Require Import Prelude Lists Tree Perp Gamma RealOps Reg Hyper Api ApiSpec Spec PruneProofs PredictProofs FitProofs OptFit ApiProofs Nonfinite NonfiniteSpec.
Local Open Scope nat_scope.

(** ** Target models that correspond to each other *)
Section Morph.
Context {Y Y' P P' S S' : Type}.
Variables (eY : Y -> Y') (eP : P -> P') (eS : S -> S').
Variables (L : lik Y P S) (L' : lik Y' P' S').

Record lik_morph : Prop := {
  lm_prior : forall pa n d, l_prior L' (option_map eP pa) n d = eP (l_prior L pa n d);
  lm_no : forall lvl p ys, l_no_split L' lvl (eP p) (map eY ys) = eS (l_no_split L lvl p ys);
  lm_split : forall lvl p d ys ks, l_split L' lvl (eP p) d (map eY ys) ks = map eS (l_split L lvl p d ys ks);
  lm_argmax : forall l, l_argmax L' (map eS l) = l_argmax L l;
  lm_gt : forall a b, l_gt L' (eS a) (eS b) = l_gt L a b;
  lm_ge : forall a b, l_ge L' (eS a) (eS b) = l_ge L a b;
  lm_post : forall p ys, l_post L' (eP p) (map eY ys) = eP (l_post L p ys);
  lm_child : forall p ys, l_child_prior L' (eP p) (map eY ys) = eP (l_child_prior L p ys);
  lm_many : forall ys, l_many L' (map eY ys) = l_many L ys
}.
Hypothesis H : lik_morph.

Lemma map_res_bind {A B A' B'} (f : A -> A') (g : B -> B') (r : res A) (k : A -> res B) (k' : A' -> res B') :
  (forall a, k' (f a) = map_res g (k a)) -> rbind (map_res f r) k' = map_res g (rbind r k).
Proof. intros E. destruct r; simpl; auto. Qed.

Section Perp.
Context {A V NM : Type}.
Variables (F : feat A V) (X : nat -> nat -> A) (y : nat -> Y) (names : list NM).
Notation y' := (fun i => eY (y i)).

Definition map_best (b : best S) : best S' := mkBest (eS (b_score b)) (b_idx b) (b_dim b).

Lemma scan_dim_morph lvl p n_dim b dr :
  scan_dim F L' X y' lvl (eP p) n_dim (map_best b) dr = map_best (scan_dim F L X y lvl p n_dim b dr).
Proof.
  destruct dr as [d r]. rewrite !scan_dim_eq. unfold dim_scores, gather.
  rewrite <- (map_map y eY), (lm_split H), (lm_argmax H).
  set (sc := l_split L lvl p n_dim (map y r) (dim_positions F X r d)).
  destruct (dim_positions F X r d) as [|k0 ks]; auto.
  rewrite nth_error_map. destruct (nth_error sc (l_argmax L sc)); auto. cbn [option_map].
  destruct (nth_error (k0 :: ks) (l_argmax L sc)); auto.
  cbn [map_best b_score]. rewrite (lm_gt H). destruct (l_gt L s (b_score b)); reflexivity.
Qed.

Lemma scan_morph lvl p idxs ns :
  scan F L' X y' lvl (eP p) idxs (eS ns) = map_best (scan F L X y lvl p idxs ns).
Proof.
  unfold scan. change (mkBest (eS ns) (-1)%Z (-1)%Z) with (map_best (mkBest ns (-1)%Z (-1)%Z)).
  generalize (mkBest ns (-1)%Z (-1)%Z). generalize (length idxs) at 1 3 as nd.
  induction (combine (seq 0 (length idxs)) idxs) as [|dr l IH]; intros nd b; cbn [fold_left]; auto.
  rewrite scan_dim_morph. apply IH.
Qed.

Lemma pfit_morph fuel : forall lvl pa idxs,
  pfit F L' X y' names fuel lvl (option_map eP pa) idxs = map_res (map_tree eP eS) (pfit F L X y names fuel lvl pa idxs).
Proof.
  induction fuel as [|fuel IH]; intros lvl pa idxs; auto.
  destruct idxs as [|row0 rest] eqn:E; auto. cbn [pfit]. rewrite <- E.
  rewrite (lm_prior H). set (prior := l_prior L pa (length row0) (length idxs)).
  unfold gather. rewrite <- (map_map y eY row0), (lm_no H), scan_morph, (lm_post H).
  set (bst := scan F L X y lvl prior idxs (l_no_split L lvl prior (map y row0))). cbn [map_best b_idx b_dim b_score].
  destruct (0 <? b_idx bst)%Z; [|reflexivity].
  set (row := nth (Z.to_nat (b_dim bst)) idxs []).
  destruct (nth_error names (Z.to_nat (b_dim bst))) as [nm|]; auto.
  set (i1 := firstn (Z.to_nat (b_idx bst)) row). set (i2 := skipn (Z.to_nat (b_idx bst)) row).
  destruct (sub_indices idxs i1) as [s1|]; auto. destruct (sub_indices idxs i2) as [s2|]; auto. cbn [rbind].
  rewrite <- (map_map y eY i1), <- (map_map y eY i2), !(lm_many H), !(lm_post H), !(lm_child H).
  change (Some (eP (l_child_prior L prior (map y i1)))) with (option_map eP (Some (l_child_prior L prior (map y i1)))).
  change (Some (eP (l_child_prior L prior (map y i2)))) with (option_map eP (Some (l_child_prior L prior (map y i2)))).
  rewrite !IH.
  destruct ((1 <? length (hd [] s1)) && l_many L (map y i1)), ((1 <? length (hd [] s2)) && l_many L (map y i2));
    repeat (match goal with |- context [pfit F L X y names fuel ?a ?b ?c] => destruct (pfit F L X y names fuel a b c) end); reflexivity.
Qed.
End Perp.

Lemma prune_morph {D} (same : ninfo P -> ninfo P -> bool) (same' : ninfo P' -> ninfo P' -> bool) :
  (forall i j, same' (map_info eP i) (map_info eP j) = same i j) ->
  forall t : tree D S P, prune same' (map_tree eP eS t) = map_res (map_tree eP eS) (prune same t).
Proof.
  intros Hs t. rewrite !prune_correct. cbn [map_res]. f_equal.
  induction t as [i|i d a b c1 IH1 c2 IH2]; auto. cbn [map_tree prune_bu]. rewrite IH1, IH2.
  destruct (prune_bu same c1), (prune_bu same c2); cbn [map_tree]; auto.
  rewrite Hs. destruct (same i0 i1); reflexivity.
Qed.

Lemma perp_fit_morph {A V} (F : feat A V) same same' do_prune lvl pa (d : tset A Y) :
  (forall i j, same' (map_info eP i) (map_info eP j) = same i j) ->
  perp_fit F L' same' do_prune lvl (option_map eP pa) (mkSet (ts_n d) (ts_dim d) (ts_X d) (fun i => eY (ts_y d i)) (ts_names d)) =
  map_res (map_tree eP eS) (perp_fit F L same do_prune lvl pa d).
Proof.
  intros Hs. unfold perp_fit, pfit_root. cbn [ts_n ts_dim ts_X ts_y ts_names]. rewrite pfit_morph.
  destruct (pfit F L _ _ _ _ _ _ _) as [t|]; auto. cbn [map_res rbind]. destruct do_prune; auto. apply prune_morph; auto.
Qed.

(** ** The same for hyperplane trees *)
Section Hyper.
Context {W C N O J E : Type}.
Variable G : geo W C N O J E.
Variables (post : R -> P -> list Y -> P) (post' : R -> P' -> list Y' -> P').
Hypothesis Hpost : forall r p ys, post' r (eP p) (map eY ys) = eP (post r p ys).
Variables (X : nat -> W) (y : nat -> Y) (n_dim : nat) (cands : list bool -> list C).
Notation y' := (fun i => eY (y i)).

Definition map_hopt (st : hopt N O S E) : hopt N O S' E := mkOpt (o_evals st) (eS (o_best st)) (o_dist st) (o_plane st).

Lemma opt_compute_morph lvl p rows ns st c :
  opt_compute G L' X y' n_dim lvl (eP p) rows (eS ns) (map_hopt st) c =
  (map_hopt (fst (opt_compute G L X y n_dim lvl p rows ns st c)), eS (snd (opt_compute G L X y n_dim lvl p rows ns st c))).
Proof.
  unfold opt_compute. cbn [map_hopt o_evals o_best o_dist o_plane].
  set (nrm := g_unit G c).
  set (si := g_argsort G (fun k => g_proj G (X (nth k rows 0)) nrm) (length rows)).
  destruct (split_positions (g_gap G) (map (fun i => g_proj G (X i) nrm) rows)) as [|k0 ks] eqn:Ek; auto.
  rewrite <- (map_map (fun k => y (nth k rows 0)) eY), (lm_split H), (lm_argmax H), nth_error_map.
  set (sc := l_split L lvl p n_dim (map (fun k => y (nth k rows 0)) si) (k0 :: ks)).
  destruct (nth_error sc (l_argmax L sc)) as [s|]; auto. cbn [option_map].
  destruct (nth_error (k0 :: ks) (l_argmax L sc)) as [k|]; auto.
  rewrite (lm_ge H). destruct (l_ge L s (o_best st)); auto.
  rewrite (lm_gt H). destruct (if l_gt L s (o_best st) then true else _); reflexivity.
Qed.

Lemma opt_run_morph lvl p rows ns cs :
  opt_run G L' X y' n_dim lvl (eP p) rows (eS ns) cs = map_hopt (opt_run G L X y n_dim lvl p rows ns cs).
Proof.
  unfold opt_run. change (opt_init G (eS ns)) with (map_hopt (opt_init G ns)). generalize (opt_init G ns).
  induction cs as [|c cs IH]; intros st; auto. cbn [fold_left]. rewrite opt_compute_morph. cbn [fst]. apply IH.
Qed.

Lemma hfit_morph fuel : forall lvl path pa rows,
  hfit G L' post' X y' n_dim cands fuel lvl path (option_map eP pa) rows =
  map_res (map_tree eP eS) (hfit G L post X y n_dim cands fuel lvl path pa rows).
Proof.
  induction fuel as [|fuel IH]; intros lvl path pa rows; auto. cbn [hfit].
  rewrite (lm_prior H). set (prior := l_prior L pa (length rows) n_dim).
  rewrite <- (map_map y eY rows), (lm_no H), opt_run_morph, (lm_post H).
  set (st := opt_run G L X y n_dim lvl prior rows (l_no_split L lvl prior (map y rows)) (cands path)).
  cbn [map_hopt o_plane o_best]. destruct (o_plane st) as [pl|]; auto.
  set (r1 := filter (fun i => g_back G (p_normal pl) (p_origin pl) (X i)) rows).
  set (r2 := filter (fun i => g_front G (p_normal pl) (p_origin pl) (X i)) rows).
  destruct ((0 <? length r1) && (0 <? length r2)); auto.
  rewrite <- (map_map y eY r1), <- (map_map y eY r2), !(lm_many H), !(lm_post H), !Hpost.
  change (Some (eP (post 0%R prior (map y r1)))) with (option_map eP (Some (post 0%R prior (map y r1)))).
  change (Some (eP (post 0%R prior (map y r2)))) with (option_map eP (Some (post 0%R prior (map y r2)))).
  rewrite !IH.
  destruct ((1 <? length r1) && l_many L (map y r1)), ((1 <? length r2) && l_many L (map y r2));
    repeat (match goal with |- context [hfit G L post X y n_dim cands fuel ?a ?b ?c ?e] => destruct (hfit G L post X y n_dim cands fuel a b c e) end); reflexivity.
Qed.

End Hyper.

Lemma hyper_fit_morph {W C N O J E} (G : geo W C N O J E) post post' same same' do_prune lvl pa cands (d : hset W Y) :
  (forall r p ys, post' r (eP p) (map eY ys) = eP (post r p ys)) ->
  (forall i j, same' (map_info eP i) (map_info eP j) = same i j) ->
  hyper_fit G L' post' same' do_prune lvl (option_map eP pa) cands (mkHSet (hs_n d) (hs_dim d) (hs_X d) (fun i => eY (hs_y d i))) =
  map_res (map_tree eP eS) (hyper_fit G L post same do_prune lvl pa cands d).
Proof.
  intros Hpost Hs. unfold hyper_fit. cbn [hs_n hs_dim hs_X hs_y]. rewrite (hfit_morph G post post' Hpost).
  destruct (hfit G L post _ _ _ _ _ _ _ _ _) as [t|]; auto. cbn [map_res rbind]. destruct do_prune; auto. apply prune_morph; auto.
Qed.
End Morph.

(** ** Finite targets: the model of Reg.v *)
Local Open Scope R_scope.

Lemma x_sum_fin l : x_sum (map Fin l) = Fin (vsum l).
Proof. induction l; simpl; auto. rewrite IHl. reflexivity. Qed.
Lemma x_sq_fin l : map x_sq (map Fin l) = map Fin (map (fun a => a ^ 2) l).
Proof. rewrite !map_map. reflexivity. Qed.
Lemma x_cumsum_fin l : x_cumsum (map Fin l) = map Fin (cumsum l).
Proof.
  unfold x_cumsum, cumsum. generalize 0. induction l as [|a l IH]; intros r; auto. cbn. f_equal. apply IH.
Qed.
Lemma removelast_map {A B} (f : A -> B) l : removelast (map f l) = map f (removelast l).
Proof. induction l as [|a l IH]; auto. destruct l; auto. cbn [map removelast] in *. rewrite <- IH. reflexivity. Qed.
Lemma post_fin p n s q dl : xreg_post_internal (finite_ng p) n (Fin s) (Fin q) dl = finite_ng (reg_post_internal p n s q dl).
Proof. destruct p. reflexivity. Qed.
Lemma posterior_fin dl p ys : xreg_posterior dl (finite_ng p) (map Fin ys) = finite_ng (reg_posterior dl p ys).
Proof.
  unfold xreg_posterior, reg_posterior. destruct (Reqb dl 0); auto.
  rewrite x_sq_fin, !x_sum_fin, map_length. apply post_fin.
Qed.
Lemma log_p_fin p a b k n : xreg_log_p_data (finite_ng p) a (Fin b) k n = Fin (reg_log_p_data p a b k n).
Proof. destruct p. unfold xreg_log_p_data, reg_log_p_data, finite_ng. cbn. unfold x_sub. cbn. f_equal. Qed.
Lemma no_split_fin pp lvl p ys : xreg_no_split pp lvl (finite_ng p) (map Fin ys) = Fin (reg_no_split pp lvl p ys).
Proof.
  unfold xreg_no_split, reg_no_split. rewrite x_sq_fin, !x_sum_fin, map_length, post_fin.
  cbn [finite_ng x_alpha x_beta x_kappa]. fold (finite_ng p). rewrite log_p_fin. reflexivity.
Qed.
Lemma side_fin p : forall ns ss qs, xreg_side (finite_ng p) ns (map Fin ss) (map Fin qs) = map Fin (reg_side p ns ss qs).
Proof.
  unfold xreg_side, reg_side. induction ns as [|n ns IH]; intros ss qs; auto.
  destruct ss as [|s ss]; auto. destruct qs as [|q qs]; auto. cbn [map combine]. rewrite IH. f_equal.
Qed.
Lemma split_fin pp lvl p d ys ks : xreg_split pp lvl (finite_ng p) d (map Fin ys) ks = map Fin (reg_split pp lvl p d ys ks).
Proof.
  unfold xreg_split, reg_split. cbv zeta. rewrite map_length, x_cumsum_fin, removelast_map, x_sum_fin.
  rewrite x_sq_fin, x_sum_fin.
  assert (Ecum : x_cumsum (map x_sq (removelast (map Fin ys))) = map Fin (cumsum (map (fun y => y ^ 2) (removelast ys)))).
  { rewrite removelast_map, x_sq_fin. apply x_cumsum_fin. }
  rewrite Ecum, !map_map.
  assert (Emap : forall (t : R) (l : list R), map (fun x => x_sub (Fin t) (Fin x)) l = map Fin (map (fun s => t - s) l)).
  { intros t l. rewrite map_map. reflexivity. }
  rewrite !Emap.
  assert (Epick : forall l : list R, map (fun s => nth (s - 1) (map Fin l) (Fin 0)) ks = map Fin (map (fun s => nth (s - 1) l 0) ks)).
  { intros l. rewrite map_map. apply map_ext. intros s. apply map_nth. }
  rewrite !Epick.
  assert (E2 : forall c (a b : list R), map2 (fun u v => x_add (x_add (Fin c) u) v) (map Fin a) (map Fin b) = map Fin (map2 (fun u v => c + u + v) a b)).
  { intros c. induction a as [|u a IH]; intros b; auto. destruct b; auto. cbn [map map2]. f_equal. apply IH. }
  destruct (length ks =? length ys - 1)%nat; rewrite !side_fin, E2; reflexivity.
Qed.
Lemma x_gt_fin a b : x_gt (Fin a) (Fin b) = Rgtb a b.
Proof. reflexivity. Qed.
Lemma argmax_fin l : x_argmax (map Fin l) = argmax Rgtb l.
Proof.
  unfold x_argmax, argmax. destruct l as [|a l]; auto. cbn [map].
  generalize a 0%nat 1%nat. induction l as [|b l IH]; intros m k i; auto. cbn [map argmax_from x_nan andb orb].
  rewrite x_gt_fin. destruct (Rgtb b m); apply IH.
Qed.
Lemma many_fin ys : many_x (map Fin ys) = many_R ys.
Proof.
  unfold many_x, many_R. f_equal. induction ys as [|a l IH]; auto. cbn [map nodup].
  destruct (in_dec ext_dec (Fin a) (map Fin l)) as [Hin|Hin], (in_dec Req_EM_T a l) as [Hin'|Hin']; cbn [length]; auto.
  - exfalso. apply Hin'. apply in_map_iff in Hin. destruct Hin as (b & E & Hb). injection E as ->. auto.
  - exfalso. apply Hin. apply in_map; auto.
Qed.

Lemma reg_morph pp dl : lik_morph Fin finite_ng Fin (reg_lik pp dl) (xreg_lik pp dl).
Proof.
  constructor; cbn [reg_lik xreg_lik l_prior l_no_split l_split l_argmax l_gt l_ge l_post l_child_prior l_many].
  - intros [p|] n d; reflexivity.
  - intros. apply no_split_fin.
  - intros. apply split_fin.
  - intros. apply argmax_fin.
  - reflexivity.
  - reflexivity.
  - intros. apply posterior_fin.
  - intros. destruct (Reqb dl 0); auto. apply posterior_fin.
  - intros. apply many_fin.
Qed.

Theorem xreg_finite srt h d : xreg_fit srt h (as_floats d) = map_res (map_tree finite_ng Fin) (reg_fit srt h d).
Proof. apply (perp_fit_morph Fin finite_ng Fin _ _ (reg_morph _ _)). intros [] []; reflexivity. Qed.
Theorem xhreg_finite {C} (pre : C -> list R) srt cands h d :
  xhreg_fit pre srt cands h (as_hfloats d) = map_res (map_tree finite_ng Fin) (hreg_fit pre srt cands h d).
Proof. apply (hyper_fit_morph Fin finite_ng Fin _ _ (reg_morph _ _)); [intros; apply posterior_fin|intros [] []; reflexivity]. Qed.

(** ** A target that is not a number *)

Lemma add_not_number a b : ~ number a \/ ~ number b -> ~ number (x_add a b).
Proof.
  intros H (r & E). destruct a as [x| | |], b as [y| | |]; try discriminate.
  destruct H as [H|H]; apply H; eexists; reflexivity.
Qed.
Lemma number_dec a : {number a} + {~ number a}.
Proof. destruct a; [left; eexists; reflexivity|right; intros [? E]; discriminate..]. Qed.
Lemma fold_not_number l : forall acc, ~ number acc \/ Exists (fun a => ~ number a) l -> ~ number (fold_left x_add l acc).
Proof.
  induction l as [|a l IH]; intros acc [H|H]; cbn [fold_left]; auto; try (inversion H; fail).
  - apply IH. left. apply add_not_number; auto.
  - apply IH. inversion H; subst; [left; apply add_not_number; auto|right; auto].
Qed.
Lemma fold_number l : forall acc, number acc -> Forall number l -> number (fold_left x_add l acc).
Proof.
  induction l as [|a l IH]; intros acc Ha Hl; cbn [fold_left]; auto. inversion_clear Hl as [|? ? H1 H2]. apply IH; auto.
  destruct Ha as [x ->], H1 as [y ->]. eexists. reflexivity.
Qed.
Lemma sum_not_number l : Exists (fun a => ~ number a) l -> ~ number (x_sum l).
Proof. induction 1 as [a l H|a l H IH]; cbn [x_sum fold_right]; apply add_not_number; auto. Qed.

(** The possible sums of squares. *)
Definition sq_like (a : ext) : Prop := a <> NInf.
Definition blown (a : ext) : Prop := a = PInf \/ a = NaN.
Lemma blown_iff a : blown a <-> sq_like a /\ ~ number a.
Proof.
  unfold blown, sq_like. destruct a; split; intros H; try (destruct H as [H|H]; discriminate); try (split; [discriminate|intros [? ?]; discriminate]); auto.
  - destruct H as [_ H]. exfalso. apply H. eexists; reflexivity.
  - tauto.
Qed.
Lemma sq_sq_like a : sq_like (x_sq a).
Proof. destruct a; discriminate. Qed.
Lemma add_sq_like a b : sq_like a -> sq_like b -> sq_like (x_add a b).
Proof. unfold sq_like. destruct a, b; cbn; congruence. Qed.
Lemma sq_number a : number (x_sq a) <-> number a.
Proof. destruct a; cbn; split; intros [? E]; try discriminate; eexists; reflexivity. Qed.
Lemma fold_sq_like l : forall acc, sq_like acc -> Forall sq_like l -> sq_like (fold_left x_add l acc).
Proof.
  induction l as [|a l IH]; intros acc Ha Hl; cbn [fold_left]; auto. inversion_clear Hl. apply IH; auto. apply add_sq_like; auto.
Qed.
Lemma sum_sq_like l : Forall sq_like l -> sq_like (x_sum l).
Proof. induction 1; cbn [x_sum fold_right]; [discriminate|apply add_sq_like; auto]. Qed.
Lemma exists_sq l : Exists (fun a => ~ number a) l -> Exists (fun a => ~ number a) (map x_sq l).
Proof. intros H. rewrite Exists_exists in *. destruct H as (a & Hi & Ha). exists (x_sq a). split; [apply in_map; auto|rewrite sq_number; auto]. Qed.
Lemma forall_sq l : Forall sq_like (map x_sq l).
Proof. rewrite Forall_forall. intros a Ha. apply in_map_iff in Ha. destruct Ha as (b & <- & _). apply sq_sq_like. Qed.

Lemma beta_nan p n s q : 0 < n -> ~ number s -> blown q -> x_beta (xreg_post_internal p n s q 1) = NaN.
Proof.
  intros Hn Hs Hq. unfold xreg_post_internal. cbn [x_beta].
  assert (E : x_sub q (x_div (x_sq s) n) = NaN).
  { destruct s as [r| | |]; [exfalso; apply Hs; eexists; reflexivity|..]; cbn [x_sq x_div];
      unfold Rgtb, Rltb; try (destruct (Rlt_dec 0 n); [|lra]); destruct Hq as [-> | ->]; reflexivity. }
  rewrite E. cbn [x_scale]. destruct (x_beta p); reflexivity.
Qed.
Lemma log_p_nan p a k n : xreg_log_p_data p a NaN k n = NaN.
Proof.
  unfold xreg_log_p_data. cbn [x_ln x_scale x_sub x_neg].
  destruct (x_add _ (x_scale (x_alpha p) (x_ln (x_beta p)))); reflexivity.
Qed.

Lemma nth_cumsum_from l : forall acc k d, (k < length l)%nat -> nth k (x_cumsum_from acc l) d = fold_left x_add (firstn (S k) l) acc.
Proof.
  induction l as [|a l IH]; intros acc k d Hk; [cbn in Hk; lia|].
  destruct k; cbn [x_cumsum_from nth firstn fold_left]; auto. rewrite IH by (cbn in Hk; lia). reflexivity.
Qed.
Lemma length_cumsum_from l : forall acc, length (x_cumsum_from acc l) = length l.
Proof. induction l; intros; cbn; auto. Qed.
Lemma nth_removelast {A} (l : list A) k d : (k < length l - 1)%nat -> nth k (removelast l) d = nth k l d.
Proof.
  revert k. induction l as [|a l IH]; intros k Hk; [cbn in Hk; lia|].
  destruct l as [|b l]; [cbn in Hk; lia|]. destruct k; auto.
  change (removelast (a :: b :: l)) with (a :: removelast (b :: l)). cbn [nth]. apply IH. cbn in *. lia.
Qed.
Lemma length_removelast {A} (l : list A) : length (removelast l) = (length l - 1)%nat.
Proof. induction l as [|a l IH]; auto. destruct l; auto. change (removelast (a :: a0 :: l)) with (a :: removelast (a0 :: l)). cbn [length] in *. lia. Qed.
Lemma firstn_removelast' {A} (l : list A) k : (k <= length l - 1)%nat -> firstn k (removelast l) = firstn k l.
Proof.
  revert k. induction l as [|a l IH]; intros k Hk; [destruct k; auto|].
  destruct l as [|b l]; [cbn in Hk; assert (k = 0)%nat by lia; subst; auto|]. destruct k; auto.
  change (removelast (a :: b :: l)) with (a :: removelast (b :: l)). cbn [firstn]. f_equal. apply IH. cbn in *. lia.
Qed.

(** Evidence of one side. *)
Definition x_side (p : xng) (n : R) (s q : ext) : ext :=
  let post := xreg_post_internal p n s q 1 in xreg_log_p_data p (x_alpha post) (x_beta post) (x_kappa post) n.
Lemma side_map p (fn : nat -> R) (fs fq : nat -> ext) ks :
  xreg_side p (map fn ks) (map fs ks) (map fq ks) = map (fun k => x_side p (fn k) (fs k) (fq k)) ks.
Proof. unfold xreg_side. induction ks as [|k ks IH]; auto. cbn [map combine]. f_equal. exact IH. Qed.
Lemma map2_map {A B C D} (f : B -> C -> D) (g : A -> B) (h : A -> C) ks : map2 f (map g ks) (map h ks) = map (fun k => f (g k) (h k)) ks.
Proof. induction ks as [|k ks IH]; auto. cbn [map map2]. f_equal. exact IH. Qed.
Lemma list_as_map {A} (l : list A) d n : length l = n -> l = map (fun s => nth (s - 1) l d) (seq 1 n).
Proof.
  intros <-. rewrite <- seq_shift, map_map.
  rewrite (map_ext _ (fun k => nth k l d)) by (intros; f_equal; lia).
  induction l as [|a l IH]; auto. cbn [length seq map]. f_equal. rewrite <- seq_shift, map_map. exact IH.
Qed.

Lemma split_nan pp lvl p d ys ks : Exists (fun a => ~ number a) ys -> (forall k, In k ks -> (1 <= k < length ys)%nat) ->
  Forall (fun a => a = NaN) (xreg_split pp lvl p d ys ks).
Proof.
  intros Hy Hk. unfold xreg_split. cbv zeta.
  set (n := length ys) in *.
  set (n1 := map INR (seq 1 (n - 1))). set (n2 := map (fun k => INR n - k) n1).
  set (s1 := removelast (x_cumsum ys)). set (q1 := x_cumsum (map x_sq (removelast ys))).
  set (s2 := map (fun s => x_sub (x_sum ys) s) s1). set (q2 := map (fun s => x_sub (x_sum (map x_sq ys)) s) q1).
  assert (Ln1 : length n1 = (n - 1)%nat) by (unfold n1; rewrite map_length, seq_length; auto).
  assert (Ln2 : length n2 = (n - 1)%nat) by (unfold n2; rewrite map_length; auto).
  assert (Ls1 : length s1 = (n - 1)%nat) by (unfold s1, x_cumsum; rewrite length_removelast, length_cumsum_from; auto).
  assert (Ls2 : length s2 = (n - 1)%nat) by (unfold s2; rewrite map_length; auto).
  assert (Lq1 : length q1 = (n - 1)%nat) by (unfold q1, x_cumsum; rewrite length_cumsum_from, map_length, length_removelast; auto).
  assert (Lq2 : length q2 = (n - 1)%nat) by (unfold q2; rewrite map_length; auto).
  set (lp := ln _).
  assert (Hone : forall k, (1 <= k < n)%nat ->
    x_add (x_add (Fin lp) (x_side p (nth (k - 1) n1 0) (nth (k - 1) s1 (Fin 0)) (nth (k - 1) q1 (Fin 0))))
          (x_side p (nth (k - 1) n2 0) (nth (k - 1) s2 (Fin 0)) (nth (k - 1) q2 (Fin 0))) = NaN).
  { intros k Hkr.
    assert (En1 : nth (k - 1) n1 0 = INR k).
    { unfold n1. rewrite (nth_indep _ 0 (INR 0)) by (rewrite map_length, seq_length; lia). rewrite map_nth, seq_nth by lia. f_equal. lia. }
    assert (En2 : nth (k - 1) n2 0 = INR n - INR k).
    { unfold n2. rewrite (nth_indep _ 0 (INR n - 0)) by (rewrite map_length; lia).
      rewrite (map_nth (fun k => INR n - k)). rewrite En1. reflexivity. }
    assert (Es1 : nth (k - 1) s1 (Fin 0) = fold_left x_add (firstn k ys) (Fin 0)).
    { unfold s1. rewrite nth_removelast by (unfold x_cumsum; rewrite length_cumsum_from; fold n; lia).
      unfold x_cumsum. rewrite nth_cumsum_from by (fold n; lia). f_equal. f_equal. lia. }
    assert (Eq1 : nth (k - 1) q1 (Fin 0) = fold_left x_add (map x_sq (firstn k ys)) (Fin 0)).
    { unfold q1, x_cumsum. rewrite nth_cumsum_from by (rewrite map_length, length_removelast; fold n; lia).
      rewrite firstn_map, firstn_removelast' by (fold n; lia). f_equal. f_equal. f_equal. lia. }
    assert (Es2 : nth (k - 1) s2 (Fin 0) = x_sub (x_sum ys) (nth (k - 1) s1 (Fin 0))).
    { unfold s2. rewrite (nth_indep _ (Fin 0) (x_sub (x_sum ys) (Fin 0))) by (rewrite map_length; lia).
      rewrite (map_nth (fun s => x_sub (x_sum ys) s)). reflexivity. }
    assert (Eq2 : nth (k - 1) q2 (Fin 0) = x_sub (x_sum (map x_sq ys)) (nth (k - 1) q1 (Fin 0))).
    { unfold q2. rewrite (nth_indep _ (Fin 0) (x_sub (x_sum (map x_sq ys)) (Fin 0))) by (rewrite map_length; lia).
      rewrite (map_nth (fun s => x_sub (x_sum (map x_sq ys)) s)). reflexivity. }
    assert (Hnk : INR k < INR n) by (apply lt_INR; lia).
    assert (Hk0 : 0 < INR k) by (apply lt_0_INR; lia).
    destruct (Exists_dec (fun a => ~ number a) (firstn k ys)) as [H1|H1].
    { intros a. destruct (number_dec a); [right; tauto|left; auto]. }
    - assert (E : x_side p (nth (k - 1) n1 0) (nth (k - 1) s1 (Fin 0)) (nth (k - 1) q1 (Fin 0)) = NaN).
      { unfold x_side. cbv zeta. rewrite beta_nan, log_p_nan; auto; rewrite ?En1, ?Es1, ?Eq1; auto.
        - apply fold_not_number. auto.
        - apply blown_iff. split; [apply fold_sq_like; [discriminate|apply forall_sq]|].
          apply fold_not_number. right. apply exists_sq; auto. }
      rewrite E. cbn [x_add]. reflexivity.
    - assert (F1 : Forall number (firstn k ys)).
      { rewrite Forall_forall. intros a Ha. destruct (number_dec a) as [|Hn]; auto. exfalso. apply H1. rewrite Exists_exists. eauto. }
      assert (N1 : number (nth (k - 1) s1 (Fin 0))) by (rewrite Es1; apply fold_number; auto; eexists; reflexivity).
      assert (N2 : number (nth (k - 1) q1 (Fin 0))).
      { rewrite Eq1. apply fold_number; [eexists; reflexivity|]. rewrite Forall_forall in *. intros a Ha.
        apply in_map_iff in Ha. destruct Ha as (b & <- & Hb). apply sq_number; auto. }
      assert (E : x_side p (nth (k - 1) n2 0) (nth (k - 1) s2 (Fin 0)) (nth (k - 1) q2 (Fin 0)) = NaN).
      { unfold x_side. cbv zeta. rewrite beta_nan, log_p_nan; auto; rewrite ?En2, ?Es2, ?Eq2; auto.
        - lra.
        - apply add_not_number. left. apply sum_not_number; auto.
        - destruct N2 as [r ->]. apply blown_iff. split.
          + apply add_sq_like; [apply sum_sq_like, forall_sq|discriminate].
          + apply add_not_number. left. apply sum_not_number, exists_sq; auto. }
      rewrite E. destruct (x_add (Fin lp) _); reflexivity. }
  assert (Hall : forall js, (forall k, In k js -> (1 <= k < n)%nat) ->
    Forall (fun a => a = NaN) (map2 (fun a b => x_add (x_add (Fin lp) a) b)
      (xreg_side p (map (fun s => nth (s - 1) n1 0) js) (map (fun s => nth (s - 1) s1 (Fin 0)) js) (map (fun s => nth (s - 1) q1 (Fin 0)) js))
      (xreg_side p (map (fun s => nth (s - 1) n2 0) js) (map (fun s => nth (s - 1) s2 (Fin 0)) js) (map (fun s => nth (s - 1) q2 (Fin 0)) js)))).
  { intros js Hj. rewrite !side_map, map2_map. rewrite Forall_forall. intros a Ha. apply in_map_iff in Ha. destruct Ha as (k & <- & Hin).
    apply Hone. auto. }
  destruct (length ks =? n - 1)%nat; [|apply Hall; auto].
  rewrite (list_as_map n1 0 _ Ln1), (list_as_map n2 0 _ Ln2), (list_as_map s1 (Fin 0) _ Ls1), (list_as_map s2 (Fin 0) _ Ls2),
    (list_as_map q1 (Fin 0) _ Lq1), (list_as_map q2 (Fin 0) _ Lq2).
  apply Hall. intros k Hin. apply in_seq in Hin. lia.
Qed.

(** A fit in which no score compares greater than anything is a leaf. *)
Lemma scan_none {A V Y P S} (F : feat A V) (L : lik Y P S) X y lvl prior idxs ns :
  (forall row d s, In row idxs -> In s (dim_scores F L X y lvl prior (length idxs) row d) -> forall b, l_gt L s b = false) ->
  scan F L X y lvl prior idxs ns = mkBest ns (-1)%Z (-1)%Z.
Proof.
  intros Hs. unfold scan.
  assert (G : forall l b, (forall d r, In (d, r) l -> In r idxs) -> fold_left (scan_dim F L X y lvl prior (length idxs)) l b = b).
  { induction l as [|[d r] l IH]; intros b Hl; auto. cbn [fold_left]. rewrite IH by (intros d' r' Hi; apply (Hl d' r'); right; auto).
    rewrite scan_dim_eq. destruct (dim_positions F X r d) eqn:E; auto. rewrite <- E.
    destruct (nth_error (dim_scores F L X y lvl prior (length idxs) r d) _) as [s|] eqn:Es; auto. rewrite E.
    destruct (nth_error (_ :: _) _); auto. apply nth_error_In in Es. rewrite (Hs r d s); auto. apply (Hl d r). left; auto. }
  apply G. intros d r Hi. apply combine_seq_In in Hi. eapply nth_error_In, Hi.
Qed.

Lemma pfit_none {A V Y P S NM} (F : feat A V) (L : lik Y P S) X y (names : list NM) fuel lvl pa idxs row0 rest :
  idxs = row0 :: rest ->
  let prior := l_prior L pa (length row0) (length idxs) in
  (forall row d s, In row idxs -> In s (dim_scores F L X y lvl prior (length idxs) row d) -> forall b, l_gt L s b = false) ->
  pfit F L X y names (Datatypes.S fuel) lvl pa idxs =
  Ok (Leaf (mkInfo pa lvl (length row0) (Some (length idxs)) (l_post L prior (map y row0)))).
Proof.
  intros E prior Hs. rewrite E. cbn [pfit]. rewrite <- E. fold prior. rewrite scan_none; auto.
Qed.

Lemma mu_not_number p ys : ys <> [] -> Exists (fun a => ~ number a) ys -> ~ number (x_mu (xreg_posterior 1 p ys)) /\
  (In NaN ys -> x_mu (xreg_posterior 1 p ys) = NaN).
Proof.
  intros Hne Hy. unfold xreg_posterior. unfold Reqb. destruct (Req_EM_T 1 0); [lra|].
  assert (Hn : 0 < INR (length ys)) by (apply lt_0_INR; destruct ys; [congruence|cbn; lia]).
  unfold xreg_post_internal. cbn [x_mu].
  assert (Hd : forall a r, ~ number a -> ~ number (x_div a r)).
  { intros a r Ha. destruct a; [exfalso; apply Ha; eexists; reflexivity|..]; cbn [x_div]; try (destruct (Rgtb r 0)); intros [? E]; discriminate. }
  assert (Hsc : forall a r, r <> 0 -> ~ number a -> ~ number (x_scale r a)).
  { intros a r Hr Ha. destruct a; [exfalso; apply Ha; eexists; reflexivity|..]; cbn [x_scale]; unfold Reqb;
      try (destruct (Req_EM_T r 0); [lra|]); try (destruct (Rgtb r 0)); intros [? E]; discriminate. }
  split.
  - apply Hd, add_not_number. right. apply Hd, Hsc; [lra|]. apply sum_not_number; auto.
  - intros Hin. assert (E : x_sum ys = NaN).
    { clear -Hin. induction ys as [|a ys IH]; [destruct Hin|]. cbn [x_sum fold_right]. destruct Hin as [-> | Hin]; [reflexivity|].
      fold (x_sum ys). rewrite IH by auto. destruct a; reflexivity. }
    rewrite E. cbn [x_scale x_div]. destruct (x_scale (x_kappa p) (x_mu p)); reflexivity.
Qed.
Local Open Scope nat_scope.

Lemma exists_row (y : nat -> ext) rows i : In i rows -> ~ number (y i) -> Exists (fun a => ~ number a) (map y rows).
Proof. intros Hi Ha. rewrite Exists_exists. exists (y i). split; auto. apply in_map; auto. Qed.

Theorem xreg_leaf srt h d i : permutes srt -> tset_ok d -> i < ts_n d -> ~ number (ts_y d i) ->
  exists l, xreg_fit srt h d = Ok (Leaf l) /\ i_n_data l = ts_n d /\ ~ number (x_mu (i_post l)) /\
    ((exists j, j < ts_n d /\ ts_y d j = NaN) -> x_mu (i_post l) = NaN).
Proof.
  intros Hp (Hn & Hn64 & Hdim & Hnm) Hi Hy. unfold xreg_fit, perp_fit, pfit_root.
  set (F := feat_R (h_prec h) srt). set (L := xreg_lik (h_pp h) (h_delta h)).
  destruct (root_indices_wf' F (ts_X d) (ts_n d) (ts_dim d) Hp Hn64) as [Hwf Hlen]; [lia|].
  set (idxs := root_indices F (ts_X d) (ts_n d) (ts_dim d)) in *.
  destruct idxs as [|row0 rest] eqn:E; [destruct Hwf as (_ & Hwf & _); congruence|]. rewrite <- E in *.
  assert (Hrow : forall row, In row idxs -> Permutation row (seq 0 (ts_n d))) by (intros row Hr; destruct (wf_idx_rows Hwf Hr); auto).
  assert (Hex : forall row, In row idxs -> Exists (fun a => ~ number a) (map (ts_y d) row)).
  { intros row Hr. apply (exists_row _ _ i); auto. eapply Permutation_in; [symmetry; apply Hrow; auto|]. apply in_seq. lia. }
  assert (H0 : In row0 idxs) by (rewrite E; left; auto).
  rewrite (pfit_none F L _ _ _ _ _ _ _ _ _ E).
  - cbn [rbind]. eexists. split; [destruct (h_prune h); reflexivity|]. cbn [i_n_data i_post].
    split; [rewrite (Permutation_length (Hrow row0 H0)), seq_length; auto|].
    change (l_post L) with (xreg_posterior 1%R).
    destruct (mu_not_number (l_prior L (option_map finite_ng (h_prior h)) (length row0) (length idxs)) (map (ts_y d) row0)) as [M1 M2].
    + intros En. apply map_eq_nil in En. pose proof (Permutation_length (Hrow row0 H0)) as El. rewrite En, seq_length in El. cbn in El. lia.
    + apply Hex; auto.
    + split; auto. intros (j & Hj & Ej). apply M2. rewrite <- Ej. apply in_map. eapply Permutation_in; [symmetry; apply Hrow; auto|]. apply in_seq. lia.
  - intros row dm s Hr Hs b. unfold dim_scores in Hs.
    assert (Hf : Forall (fun a => a = NaN) (l_split L 0 (l_prior L (option_map finite_ng (h_prior h)) (length row0) (length idxs)) (length idxs)
       (gather (ts_y d) row) (dim_positions F (ts_X d) row dm))).
    { apply split_nan; [apply Hex; auto|]. intros k Hk. apply split_positions_range in Hk. unfold gather in *. rewrite map_length in *. auto. }
    rewrite Forall_forall in Hf. rewrite (Hf s Hs). destruct b; reflexivity.
Qed.

(** The objective keeps no plane when no score compares greater than or equal to anything. *)
Lemma opt_run_none {W C N O J E Y P S} (G : geo W C N O J E) (L : lik Y P S) X y n_dim lvl prior rows ns cs :
  (forall c b, Forall (fun s => l_ge L s b = false)
     (l_split L lvl prior n_dim (map (fun k => y (nth k rows 0)) (g_argsort G (fun k => g_proj G (X (nth k rows 0)) (g_unit G c)) (length rows)))
        (split_positions (g_gap G) (map (fun i => g_proj G (X i) (g_unit G c)) rows)))) ->
  o_plane (opt_run G L X y n_dim lvl prior rows ns cs) = None.
Proof.
  intros H. unfold opt_run.
  assert (G0 : forall l st, o_plane st = None -> o_plane (fold_left (fun st c => fst (opt_compute G L X y n_dim lvl prior rows ns st c)) l st) = None).
  { induction l as [|c l IH]; intros st Hst; auto. cbn [fold_left]. apply IH. unfold opt_compute.
    destruct (split_positions (g_gap G) (map (fun i => g_proj G (X i) (g_unit G c)) rows)) eqn:Ep; auto. rewrite <- Ep.
    destruct (nth_error (l_split L _ _ _ _ _) _) as [s|] eqn:Es; auto. rewrite Ep.
    destruct (nth_error (_ :: _) _); auto. apply nth_error_In in Es.
    pose proof (H c (o_best st)) as Hf. rewrite Forall_forall in Hf. cbn [o_best]. rewrite (Hf s Es). auto. }
  apply G0. reflexivity.
Qed.

Theorem xhreg_leaf {C} (pre : C -> list R) srt cands h d i : permutes srt -> i < hs_n d -> ~ number (hs_y d i) ->
  exists l, xhreg_fit pre srt cands h d = Ok (Leaf l) /\ i_n_data l = hs_n d /\ ~ number (x_mu (i_post l)) /\
    ((exists j, j < hs_n d /\ hs_y d j = NaN) -> x_mu (i_post l) = NaN).
Proof.
  intros Hp Hi Hy. unfold xhreg_fit, hyper_fit. cbn [hfit].
  set (G := geo_R pre (h_prec h) srt). set (L := xreg_lik (h_pp h) (h_delta h)).
  rewrite opt_run_none.
  - cbn [rbind]. eexists. split; [destruct (h_prune h); reflexivity|]. cbn [i_n_data i_post]. split; [apply seq_length|].
    change (l_post L) with (xreg_posterior 1%R).
    destruct (mu_not_number (l_prior L (option_map finite_ng (h_prior h)) (length (seq 0 (hs_n d))) (hs_dim d)) (map (hs_y d) (seq 0 (hs_n d)))) as [M1 M2].
    + intros En. apply map_eq_nil in En. apply (f_equal (@length nat)) in En. rewrite seq_length in En. cbn in En. lia.
    + apply (exists_row _ _ i); auto. apply in_seq. lia.
    + split; auto. intros (j & Hj & Ej). apply M2. rewrite <- Ej. apply in_map. apply in_seq. lia.
  - intros c b. rewrite seq_length.
    set (key := fun k => g_proj G (hs_X d (nth k (seq 0 (hs_n d)) 0)) (g_unit G c)).
    pose proof (Hp key (hs_n d)) as Hperm. change (g_argsort G key) with (srt key).
    match goal with |- Forall _ ?l => assert (Hf : Forall (fun a => a = NaN) l) end.
    { apply split_nan.
      - rewrite Exists_exists. exists (hs_y d i). split; auto. apply in_map_iff. exists i. split; [rewrite seq_nth by auto; auto|].
        eapply Permutation_in; [symmetry; apply Hperm|]. apply in_seq. lia.
      - intros k Hk. apply split_positions_range in Hk. rewrite !map_length, seq_length in *.
        rewrite (Permutation_length Hperm), seq_length. auto. }
    eapply Forall_impl; [|apply Hf]. intros a ->. destruct b; reflexivity.
Qed.

(** A leaf answers every row alike. *)
Lemma leaf_predict {D S P O} (go1 go2 : D -> nat -> bool) (val : ninfo P -> O) (l : ninfo P) m init :
  predict_rows go1 go2 val (Leaf l : tree D S P) m init = repeat (val l) m.
Proof. rewrite predict_rows_spec. cbn [lookup]. induction m as [|m IH] using nat_ind; auto. rewrite seq_S, map_app, IH. cbn [map]. rewrite <- repeat_cons. reflexivity. Qed.
