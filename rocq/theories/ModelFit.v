(** * ModelFit: histories of the perpendicular and hyperplane estimators. *)
From Coq Require Import Reals Lia.
From Verif Require Import Prelude Tree Perp RealOps Clf Reg Api Importance Spec PruneProofs Hyper HyperProofs Object ObjectSpec ObjectProofs ObjectFit
  Validate Model ModelSpec ModelProofs.
Local Open Scope nat_scope.

Lemma pfit_ndim {A V Y P S NM} (F : feat A V) (L : lik Y P S) X y (names : list NM) fuel lvl pa idxs t :
  pfit F L X y names fuel lvl pa idxs = Ok t -> i_n_dim (info t) = Some (length idxs).
Proof.
  destruct fuel as [|fuel]; [discriminate|]. cbn [pfit]. destruct idxs as [|row0 idxs]; [discriminate|].
  match goal with |- context [if ?b then _ else _] => destruct b end; [|intros [= <-]; reflexivity].
  match goal with |- context [nth_error names ?d] => destruct (nth_error names d) end; [|discriminate].
  match goal with |- (let! x := ?r in _) = _ -> _ => destruct r; [|discriminate] end. cbn [rbind].
  match goal with |- (let! x := ?r in _) = _ -> _ => destruct r; [|discriminate] end. cbn [rbind].
  match goal with |- (let! x := ?r in _) = _ -> _ => destruct r; [|discriminate] end. cbn [rbind].
  match goal with |- (let! x := ?r in _) = _ -> _ => destruct r; [|discriminate] end. cbn [rbind].
  intros [= <-]. reflexivity.
Qed.
Lemma pruned_ndim {D S P} (same : ninfo P -> ninfo P -> bool) (b : bool) (t t' : tree D S P) :
  (if b then prune same t else Ok t) = Ok t' -> i_n_dim (info t') = i_n_dim (info t).
Proof.
  destruct b; [|intros [= <-]; reflexivity]. rewrite prune_correct. intros [= <-].
  destruct t as [|i d x y c1 c2]; auto. cbn [prune_bu]. destruct (prune_bu same c1) as [i1|]; [|reflexivity].
  destruct (prune_bu same c2) as [i2|]; [|reflexivity]. destruct (same i1 i2); reflexivity.
Qed.

(** ** Perpendicular trees *)
Section Perp.
Context {E A V Y P S NM : Type}.
Variable cx : cast E A.
Variable cy : cast E Y.
Variable x_name : nat -> NM.
Variable check : option P -> arr Y -> res unit.
Variable F : feat A V.
Variable L : lik Y P S.
Variable same : P -> P -> bool.
Variable do_prune : bool.
Variable x0 : A.
Variable y0 : Y.
Notation obj := (obj (psplit NM V) S P).
Notation tsame := (fun i j => same (i_post i) (i_post j)).
Notation fit := (api_fit cy x_name check L same do_prune y0 cx F x0).
Notation valid_of := (fun a pa => validate cx cy x_name (check pa) (fa_X a) (fa_y a) (fa_names a)).
Notation fits := (fun v lvl pa => let! t := pfit_root F L (entry x0 (v_X v)) (target y0 v) (v_names v) lvl pa (len (v_X v)) (cols (v_X v)) in
                  if do_prune then prune tsame t else Ok t).

Let body (a : fit_args E NM) (v : valid A Y NM) : @M (psplit NM V) S P :=
  ofit_root F L (entry x0 (v_X v)) (target y0 v) (v_names v) (len (v_X v)) (cols (v_X v)).
Let T (a : fit_args E NM) (v : valid A Y NM) (lvl : nat) (pa : option P) : res (tree (pdesc NM V) S P) :=
  pfit_root F L (entry x0 (v_X v)) (target y0 v) (v_names v) lvl pa (len (v_X v)) (cols (v_X v)).
Let Hout a v (s : obj) : outcome_of (body a v) s = let! t := T a v (at_level (oattrs s)) (at_prior (oattrs s)) in Ok (perp_obj t).
Proof. apply ofit_outcome. Qed.
Let Hfront a v (s : obj) : keeps_front (body a v) s.
Proof. apply ofit_front. Qed.
Let fit_is a : fit a = fitm perp_klass same valid_of body do_prune a.
Proof. reflexivity. Qed.

Lemma perp_outcome a (s : obj) : outcome_of (fit a) s =
  let! v := valid_of a (at_prior (oattrs s)) in let! t := fits v (at_level (oattrs s)) (at_prior (oattrs s)) in Ok (perp_obj t).
Proof.
  rewrite fit_is, (fitm_outcome _ _ _ perp_law same valid_of body T do_prune Hout). destruct (valid_of a (at_prior (oattrs s))) as [v|e]; cbn [rbind]; [|reflexivity].
  unfold T. destruct (pfit_root _ _ _ _ _ _ _ _ _) as [t|e]; reflexivity.
Qed.
Lemma perp_invalid a (s : obj) e : valid_of a (at_prior (oattrs s)) = Err e -> fit a s = ([], Some e).
Proof. exact (fitm_invalid perp_klass same valid_of body do_prune a s e). Qed.
Lemma perp_raised a (s : obj) e o : raised (fit a) s e o -> at_post (oattrs o) = at_post (oattrs s).
Proof. intros H. apply (fitm_raised _ _ _ perp_law same valid_of body T do_prune Hout Hfront) in H. apply H. Qed.
Lemma perp_interrupted a (s o : obj) : do_prune = false -> interrupted (fit a) s o -> at_post (oattrs o) = at_post (oattrs s).
Proof. intros Hp H. apply (fitm_interrupted perp_klass same valid_of body do_prune Hfront) in H; auto. apply H. Qed.
Lemma perp_refit s0 s a : reachable fit s0 s -> outcome_of (fit a) s = outcome_of (fit a) s0.
Proof. exact (refit_same _ _ _ perp_law same valid_of body T do_prune Hout Hfront s0 s a). Qed.
Lemma perp_never s0 s : never_fitted fit s0 s -> at_post (oattrs s) = at_post (oattrs s0).
Proof. exact (never_fitted_post _ _ _ perp_law same valid_of body T do_prune Hout Hfront s0 s). Qed.
Lemma perp_fits a (s o : obj) : outcome_of (fit a) s = Ok o -> exists v t,
  valid_of a (at_prior (oattrs s)) = Ok v /\ fits v (at_level (oattrs s)) (at_prior (oattrs s)) = Ok t /\ o = perp_obj t /\ i_n_dim (info t) = Some (cols (v_X v)).
Proof.
  intros H. apply (fitm_fits _ _ _ perp_law same valid_of body T do_prune Hout) in H as (v & t & Hv & Ht & Ho).
  exists v, t. repeat split; auto. unfold T in Ht.
  destruct (pfit_root _ _ _ _ _ _ _ _ _) as [t0|e] eqn:E0; cbn [rbind] in Ht; [|discriminate].
  rewrite (pruned_ndim _ _ _ _ Ht). unfold pfit_root in E0. rewrite (pfit_ndim _ _ _ _ _ _ _ _ _ _ E0). unfold root_indices. rewrite map_length, seq_length. reflexivity.
Qed.
End Perp.

(** ** Hyperplane trees; every call of [fit] may evaluate other candidates. *)
Section Hyper.
Context {E A W C N O J Q Y P S NM : Type}.
Variable cx : cast E A.
Variable cy : cast E Y.
Variable x_name : nat -> NM.
Variable check : option P -> arr Y -> res unit.
Variable G : geo W C N O J Q.
Variable L : lik Y P S.
Variable post : R -> P -> list Y -> P.
Variable row : arr A -> nat -> W.
Variable same : P -> P -> bool.
Variable do_prune : bool.
Variable y0 : Y.
Notation obj := (obj (hsplit N O) S P).
Notation tsame := (fun i j => same (i_post i) (i_post j)).
Notation Args := ((list bool -> list C) * fit_args E NM)%type.
Notation fit := (fun a : Args => api_hfit cy x_name check L same do_prune y0 cx G post row (fst a) (snd a)).
Notation valid_of := (fun (a : Args) pa => validate cx cy x_name (check pa) (fa_X (snd a)) (fa_y (snd a)) (fa_names (snd a))).
Notation fits := (fun (a : Args) v lvl pa =>
  let! t := hfit G L post (row (v_X v)) (target y0 v) (cols (v_X v)) (fst a) (Datatypes.S (len (v_X v))) lvl [] pa (seq 0 (len (v_X v))) in
  if do_prune then prune tsame t else Ok t).

Let body (a : Args) (v : valid A Y NM) : @M (hsplit N O) S P :=
  ohfit G L post (row (v_X v)) (target y0 v) (cols (v_X v)) (fst a) (Datatypes.S (len (v_X v))) [] (seq 0 (len (v_X v))).
Let T (a : Args) (v : valid A Y NM) (lvl : nat) (pa : option P) : res (tree (plane N O) S P) :=
  hfit G L post (row (v_X v)) (target y0 v) (cols (v_X v)) (fst a) (Datatypes.S (len (v_X v))) lvl [] pa (seq 0 (len (v_X v))).
Let Hout a v (s : obj) : outcome_of (body a v) s = let! t := T a v (at_level (oattrs s)) (at_prior (oattrs s)) in Ok (hyper_obj t).
Proof. apply ohfit_outcome. Qed.
Let Hfront a v (s : obj) : keeps_front (body a v) s.
Proof. apply ohfit_front. Qed.
Let fit_is a : fit a = fitm hyper_klass same valid_of body do_prune a.
Proof. reflexivity. Qed.

Lemma hyper_outcome a (s : obj) : outcome_of (fit a) s =
  let! v := valid_of a (at_prior (oattrs s)) in let! t := fits a v (at_level (oattrs s)) (at_prior (oattrs s)) in Ok (hyper_obj t).
Proof.
  pose proof (fitm_outcome _ _ _ hyper_law same valid_of body T do_prune Hout a s) as H. refine (eq_trans H _). clear H. cbv beta.
  destruct (valid_of a (at_prior (oattrs s))) as [v|e]; cbn [rbind]; [|reflexivity].
  unfold T. destruct (hfit _ _ _ _ _ _ _ _ _ _ _ _) as [t|e]; reflexivity.
Qed.
Lemma hyper_invalid a (s : obj) e : valid_of a (at_prior (oattrs s)) = Err e -> fit a s = ([], Some e).
Proof. exact (fitm_invalid hyper_klass same valid_of body do_prune a s e). Qed.
Lemma hyper_raised a (s : obj) e o : raised (fit a) s e o -> at_post (oattrs o) = at_post (oattrs s).
Proof. intros H. apply (fitm_raised _ _ _ hyper_law same valid_of body T do_prune Hout Hfront a) in H. apply H. Qed.
Lemma hyper_interrupted a (s o : obj) : do_prune = false -> interrupted (fit a) s o -> at_post (oattrs o) = at_post (oattrs s).
Proof. intros Hp H. apply (fitm_interrupted hyper_klass same valid_of body do_prune Hfront a) in H; auto. apply H. Qed.
Lemma hyper_refit s0 s a : reachable fit s0 s -> outcome_of (fit a) s = outcome_of (fit a) s0.
Proof. exact (refit_same _ _ _ hyper_law same valid_of body T do_prune Hout Hfront s0 s a). Qed.
Lemma hyper_never s0 s : never_fitted fit s0 s -> at_post (oattrs s) = at_post (oattrs s0).
Proof. exact (never_fitted_post _ _ _ hyper_law same valid_of body T do_prune Hout Hfront s0 s). Qed.
Lemma hyper_fits a (s o : obj) : outcome_of (fit a) s = Ok o -> exists v t,
  valid_of a (at_prior (oattrs s)) = Ok v /\ fits a v (at_level (oattrs s)) (at_prior (oattrs s)) = Ok t /\ o = hyper_obj t /\ i_n_dim (info t) = Some (cols (v_X v)).
Proof.
  intros H. apply (fitm_fits _ _ _ hyper_law same valid_of body T do_prune Hout a) in H as (v & t & Hv & Ht & Ho).
  exists v, t. repeat split; auto. unfold T in Ht.
  destruct (hfit _ _ _ _ _ _ _ _ _ _ _ _) as [t0|e] eqn:E0; cbn [rbind] in Ht; [|discriminate].
  rewrite (pruned_ndim _ _ _ _ Ht). apply hfit_levels in E0. tauto.
Qed.
End Hyper.
