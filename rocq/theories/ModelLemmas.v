(** * ModelLemmas: the statements about histories, queries and interrupts. *)
From Coq Require Import Reals Lia.
From Verif Require Import Prelude Lists Tree Perp RealOps Clf Reg Api Importance Spec PruneProofs PredictProofs ApiSpec ApiProofs Hyper HyperSpec HyperProofs HyperApi
  Object ObjectSpec ObjectProofs ObjectFit Validate ValidateProofs Model ModelSpec ModelProofs ModelFit.
Local Open Scope nat_scope.

Lemma unfitted_importance {U D P} (K : klass U D) upd (o : obj U R P) : at_post (oattrs o) = None -> api_importance K upd o = Err ValueError.
Proof. intros H. unfold api_importance. rewrite unfitted_ensure by auto. reflexivity. Qed.
Lemma zero_d_query {E A NM U D S P O} (K : klass U D) (cx : cast E A) (x_name : nat -> NM) go1 go2 (val : option P -> P -> O) init (o : obj U S P) t v :
  api_query K cx x_name go1 go2 val init o (XArray (mkArr [] t [v])) = Err IndexError.
Proof. reflexivity. Qed.

(** ** Objects between two assignments *)
Lemma then_prefix {U S P} (m1 m2 : @M U S P) s : exists l, fst ((m1 ;; m2) s) = fst (m1 s) ++ l.
Proof.
  unfold andthen. destruct (m1 s) as [t1 [x|]]; cbn [fst]; [exists []; rewrite app_nil_r; auto|].
  destruct (m2 (last t1 s)) as [t2 x]. exists t2. reflexivity.
Qed.
Lemma erase_first {U S P} (m : @M U S P) s : exists x l, fst ((erase_base ;; m) s) = set_c1 PyNone s :: x :: l.
Proof. destruct (then_prefix erase_base m s) as (l & ->). cbn. eauto. Qed.
Section Halfway.
Context {U D S P : Type}.
Variable K : klass U D.
Variable stored : D -> U.
Variable erased : U.
Hypothesis Klaw : klass_law K stored erased.
Notation obj_of := (@obj_of U D S P stored erased).

(** The first state of pruning a split with two equal leaves. *)
Lemma halfway_prune same (i i1 i2 : ninfo P) (d : D) (v1 v2 : S) : same (i_post i1) (i_post i2) = true ->
  exists t2, t2 <> [] /\ fst (prune_obj K same (obj_of (Split i d v1 v2 (Leaf i1) (Leaf i2)))) =
    set_c1 PyNone (obj_of (Split i d v1 v2 (Leaf i1) (Leaf i2))) :: t2.
Proof.
  intros H. unfold prune_obj, reading. rewrite osize_of. change (size (Split i d v1 v2 (Leaf i1) (Leaf i2))) with (Datatypes.S 2). set (t := Split i d v1 v2 (Leaf i1) (Leaf i2)). generalize 2. intros n.
  cbn [oprune]. unfold reading at 1. rewrite (node_split_of _ _ _ Klaw). cbn [lifted t].
  change (Split i d v1 v2 (Leaf i1) (Leaf i2)) with t. rewrite (odepth_of _ _ _ Klaw). cbn [lifted]. rewrite (on_leaves_of _ _ _ Klaw). cbn [lifted].
  match goal with |- context [(?m1 ;; ?m2) (obj_of t)] => destruct (then_prefix m1 m2 (obj_of t)) as (l & ->);
    assert (E1 : m1 (obj_of t) = (erase_base ;; erase_split K) (obj_of t)) end.
  { change (oc1 (obj_of t)) with (Ref (obj_of (Leaf i1))). change (oc2 (obj_of t)) with (Ref (obj_of (Leaf i2))).
    cbn [ref_split]. rewrite !(node_split_of _ _ _ Klaw). cbn [lifted]. cbn [ref_post ObjectSpec.obj_of oattrs at_post lifted]. rewrite H. reflexivity. }
  rewrite E1. destruct (erase_first (erase_split K) (obj_of t)) as (o & l' & ->). eexists. split; [|reflexivity]. discriminate.
Qed.

(** [predict] after only [child1_] was removed. *)
Lemma halfway_predict {E A NM O} (cx : cast E A) (x_name : nat -> NM) go1 go2 (val : option P -> P -> O) init i d (v1 v2 : S) c1 c2 x n :
  i_n_dim i = Some n -> query_matrix x n ->
  (exists q, q < query_rows x /\ go1 (query_arr cx x n) d q = true) ->
  api_query K cx x_name go1 go2 val init (set_c1 PyNone (obj_of (Split i d v1 v2 c1 c2))) x = Err AttributeError.
Proof.
  intros Hi Hx (q & Hq & Hl). unfold api_query. destruct (normalize_query cx x_name x n None Hx) as (nm & ->).
  cbn [rbind fst]. change (cols (query_arr cx x n)) with n. unfold ensure_is_fitted, is_fitted. cbn [ObjectSpec.obj_of set_c1 oattrs at_post at_ndim]. rewrite Hi, Nat.eqb_refl.
  cbn [rbind opredict].
  assert (Hs : node_split K (set_c1 PyNone (obj_of (Split i d v1 v2 c1 c2))) = Ok (Some d)).
  { unfold node_split, ensure_is_fitted, is_fitted. cbn [ObjectSpec.obj_of set_c1 oattrs at_post rbind at_split]. apply Klaw. }
  cbn [ObjectSpec.obj_of set_c1] in Hs. rewrite Hi in Hs. rewrite Hs. cbn [rbind].
  change (len (query_arr cx x n)) with (query_rows x).
  destruct (0 <? length (np_where (map (go1 (query_arr cx x n) d) (seq 0 (query_rows x))))) eqn:E0; [reflexivity|].
  exfalso. apply Nat.ltb_ge in E0. rewrite np_where_length_map in E0.
  assert (Hin : In q (filter (go1 (query_arr cx x n) d) (seq 0 (query_rows x)))) by (apply filter_In; split; [apply in_seq; lia|auto]).
  destruct (filter _ _); [destruct Hin|simpl in E0; lia].
Qed.
End Halfway.

(** ** Perpendicular trees *)
Section Perp.
Context {E A V Y P NM : Type}.
Variable e : perp_est E A V Y P NM.
Notation obj := (obj (psplit NM V) R P).

Lemma pe_never prior s : never_fitted (pe_fit e) (pe_new prior) s -> at_post (oattrs s) = None.
Proof. intros H. apply perp_never in H. exact H. Qed.
Lemma pe_unfitted_queries {O St} (val : option P -> P -> O) init (step : pdesc NM V -> bool -> St) (s : obj) : at_post (oattrs s) = None ->
  (forall x c, query_matrix x c -> pe_query e val init s x = Err ValueError /\ pe_paths e step s x = Err ValueError) /\
  (forall x, exists ex, pe_query e val init s x = Err ex) /\ pe_importance s = Err ValueError.
Proof.
  intros H. split; [|split].
  - intros x c Hx. split; [eapply query_unfitted|eapply paths_unfitted]; eauto.
  - intros x. apply query_unfitted_raises; auto.
  - apply unfitted_importance; auto.
Qed.
Lemma pe_never_queries {O St} (val : option P -> P -> O) init (step : pdesc NM V -> bool -> St) prior s : never_fitted (pe_fit e) (pe_new prior) s ->
  (forall x c, query_matrix x c -> pe_query e val init s x = Err ValueError /\ pe_paths e step s x = Err ValueError) /\
  (forall x, exists ex, pe_query e val init s x = Err ex) /\ pe_importance s = Err ValueError.
Proof. intros H. apply pe_unfitted_queries, (pe_never prior), H. Qed.
Lemma pe_fits a (s o : obj) n : query_matrix (fa_X a) n -> outcome_of (pe_fit e a) s = Ok o ->
  exists t, o = perp_obj t /\ i_n_dim (info t) = Some n.
Proof.
  intros Hx H. apply perp_fits in H as (v & t & Hv & _ & -> & Hn). exists t. split; auto. rewrite Hn. f_equal.
  rewrite (validate_query (pe_cx e) (pe_name e) (pe_cy e) _ _ _ _ _ n Hx Hv). reflexivity.
Qed.
Lemma pe_columns {O St} (val : option P -> P -> O) init (step : pdesc NM V -> bool -> St) a (s o : obj) x n c :
  query_matrix (fa_X a) n -> outcome_of (pe_fit e a) s = Ok o -> query_matrix x c ->
  if Nat.eqb c n then
    (exists r, pe_query e val init o x = Ok r /\ length r = query_rows x) /\ (exists r, pe_paths e step o x = Ok r)
  else pe_query e val init o x = Err ValueError /\ pe_paths e step o x = Err ValueError.
Proof.
  intros Ha Ho Hx. destruct (pe_fits a s o n Ha Ho) as (t & -> & Hn). destruct (Nat.eqb c n) eqn:Ec; [apply Nat.eqb_eq in Ec; subst c|apply Nat.eqb_neq in Ec]; split.
  - unfold pe_query, perp_obj. rewrite (query_fitted perp_klass _ _ perp_law (pe_cx e) (pe_name e) (pe_left e) (pe_right e) val init t x n Hn Hx).
    eexists. split; [reflexivity|]. unfold predict_rows. rewrite predict_into_length, repeat_length. reflexivity.
  - unfold pe_paths, perp_obj. rewrite (paths_fitted perp_klass _ _ perp_law (pe_cx e) (pe_name e) (pe_left e) (pe_right e) step t x n Hn Hx). eauto.
  - eapply (query_wrong perp_klass perp_stored perp_erased); eauto.
  - eapply (paths_wrong perp_klass perp_stored perp_erased); eauto.
Qed.

Lemma pe_refit prior s a : reachable (pe_fit e) (pe_new prior) s -> outcome_of (pe_fit e a) s = outcome_of (pe_fit e a) (pe_new prior).
Proof. apply perp_refit. Qed.
Lemma pe_invalid a (s : obj) ex : pe_validate e (at_prior (oattrs s)) a = Err ex -> pe_fit e a s = ([], Some ex).
Proof. apply perp_invalid. Qed.
Lemma pe_reachable_prior prior s : reachable (pe_fit e) (pe_new prior) s -> at_prior (oattrs s) = prior.
Proof.
  intros H. apply (reachable_args perp_klass perp_stored perp_erased perp_law (pe_same e)
    (fun a pa => pe_validate e pa a) (fun a v => pe_grow e v)
    (fun a v lvl pa => pfit_root (pe_F e) (pe_L e) (entry (pe_x0 e) (v_X v)) (target (pe_y0 e) v) (v_names v) lvl pa (len (v_X v)) (cols (v_X v))) (pe_prune e)) in H.
  - apply H.
  - intros. apply ofit_outcome.
  - intros. apply ofit_front.
Qed.
Lemma pe_invalid_history a prior s ex : reachable (pe_fit e) (pe_new prior) s -> pe_validate e prior a = Err ex -> pe_fit e a s = ([], Some ex).
Proof. intros H Hv. apply pe_invalid. rewrite (pe_reachable_prior prior s H). exact Hv. Qed.

Lemma pe_interrupted_post a (s o : obj) : pe_prune e = false -> at_post (oattrs s) = None -> interrupted (pe_fit e a) s o -> at_post (oattrs o) = None.
Proof. intros Hp Hs H. rewrite (perp_interrupted _ _ _ _ _ _ _ _ _ _ a s o Hp H). exact Hs. Qed.
Lemma pe_interrupted {O St} (val : option P -> P -> O) init (step : pdesc NM V -> bool -> St) a (s o : obj) :
  pe_prune e = false -> at_post (oattrs s) = None -> interrupted (pe_fit e a) s o ->
  (forall x c, query_matrix x c -> pe_query e val init o x = Err ValueError /\ pe_paths e step o x = Err ValueError) /\
  (forall x, exists ex, pe_query e val init o x = Err ex) /\ pe_importance o = Err ValueError.
Proof. intros Hp Hs H. apply pe_unfitted_queries. eapply pe_interrupted_post; eauto. Qed.
Lemma pe_grow_interrupted {O St} (val : option P -> P -> O) init (step : pdesc NM V -> bool -> St) v (s o : obj) :
  at_post (oattrs s) = None -> interrupted (pe_grow e v) s o ->
  (forall x c, query_matrix x c -> pe_query e val init o x = Err ValueError /\ pe_paths e step o x = Err ValueError) /\
  (forall x, exists ex, pe_query e val init o x = Err ex) /\ pe_importance o = Err ValueError.
Proof.
  intros Hs H. apply pe_unfitted_queries. apply front_interrupted in H; [|apply ofit_front]. destruct H as [_ ->]. exact Hs.
Qed.
Lemma pe_raised_post a (s o : obj) ex : raised (pe_fit e a) s ex o -> at_post (oattrs o) = at_post (oattrs s).
Proof. apply perp_raised. Qed.

End Perp.

(** ** Hyperplane trees *)
Section Hyper.
Context {E A W C J Q Y P NM : Type}.
Variable e : hyper_est E A W C J Q Y P NM.
Notation obj := (obj (hsplit (list R) (list R)) R P).

Lemma he_unfitted_queries {O} (val : option P -> P -> O) init (s : obj) : at_post (oattrs s) = None ->
  (forall x c, query_matrix x c -> he_query e val init s x = Err ValueError) /\
  (forall x, exists ex, he_query e val init s x = Err ex) /\ he_importance s = Err ValueError.
Proof.
  intros H. split; [|split].
  - intros x c Hx. eapply query_unfitted; eauto.
  - intros x. apply query_unfitted_raises; auto.
  - apply unfitted_importance; auto.
Qed.
Lemma he_never prior s : never_fitted (he_fit e) (he_new prior) s -> at_post (oattrs s) = None.
Proof. intros H. apply hyper_never in H. exact H. Qed.
Lemma he_never_queries {O} (val : option P -> P -> O) init prior s : never_fitted (he_fit e) (he_new prior) s ->
  (forall x c, query_matrix x c -> he_query e val init s x = Err ValueError) /\
  (forall x, exists ex, he_query e val init s x = Err ex) /\ he_importance s = Err ValueError.
Proof. intros H. apply he_unfitted_queries, (he_never prior), H. Qed.
Lemma he_fits a (s o : obj) n : query_matrix (fa_X (snd a)) n -> outcome_of (he_fit e a) s = Ok o ->
  exists t, o = hyper_obj t /\ i_n_dim (info t) = Some n.
Proof.
  intros Hx H. apply hyper_fits in H as (v & t & Hv & _ & -> & Hn). exists t. split; auto. rewrite Hn. f_equal.
  rewrite (validate_query (he_cx e) (he_name e) (he_cy e) _ _ _ _ _ n Hx Hv). reflexivity.
Qed.
Lemma he_columns {O} (val : option P -> P -> O) init a (s o : obj) x n c :
  query_matrix (fa_X (snd a)) n -> outcome_of (he_fit e a) s = Ok o -> query_matrix x c ->
  if Nat.eqb c n then exists r, he_query e val init o x = Ok r /\ length r = query_rows x
  else he_query e val init o x = Err ValueError.
Proof.
  intros Ha Ho Hx. destruct (he_fits a s o n Ha Ho) as (t & -> & Hn). destruct (Nat.eqb c n) eqn:Ec; [apply Nat.eqb_eq in Ec; subst c|apply Nat.eqb_neq in Ec].
  - unfold he_query, hyper_obj. rewrite (query_fitted hyper_klass _ _ hyper_law (he_cx e) (he_name e) (he_back e) (he_front e) val init t x n Hn Hx).
    eexists. split; [reflexivity|]. unfold predict_rows. rewrite predict_into_length, repeat_length. reflexivity.
  - eapply (query_wrong hyper_klass hyper_stored hyper_erased); eauto.
Qed.
Lemma he_refit prior s a : reachable (he_fit e) (he_new prior) s -> outcome_of (he_fit e a) s = outcome_of (he_fit e a) (he_new prior).
Proof. exact (hyper_refit (he_cx e) (he_cy e) (he_name e) (he_check e) (he_G e) (he_L e) (he_post e) (he_row e) (he_same e) (he_prune e) (he_y0 e) (he_new prior) s a). Qed.
Lemma he_invalid a (s : obj) ex : he_validate e (at_prior (oattrs s)) (snd a) = Err ex -> he_fit e a s = ([], Some ex).
Proof. exact (hyper_invalid (he_cx e) (he_cy e) (he_name e) (he_check e) (he_G e) (he_L e) (he_post e) (he_row e) (he_same e) (he_prune e) (he_y0 e) a s ex). Qed.
Lemma he_reachable_prior prior s : reachable (he_fit e) (he_new prior) s -> at_prior (oattrs s) = prior.
Proof.
  intros H. apply (reachable_args hyper_klass hyper_stored hyper_erased hyper_law (he_same e)
    (fun a pa => he_validate e pa (snd a)) (fun a v => he_grow e (fst a) v)
    (fun a v lvl pa => hfit (he_G e) (he_L e) (he_post e) (he_row e (v_X v)) (target (he_y0 e) v) (cols (v_X v)) (fst a) (Datatypes.S (len (v_X v))) lvl [] pa (seq 0 (len (v_X v)))) (he_prune e)) in H.
  - apply H.
  - intros. apply ohfit_outcome.
  - intros. apply ohfit_front.
Qed.
Lemma he_invalid_history a prior s ex : reachable (he_fit e) (he_new prior) s -> he_validate e prior (snd a) = Err ex -> he_fit e a s = ([], Some ex).
Proof. intros H Hv. apply he_invalid. rewrite (he_reachable_prior prior s H). exact Hv. Qed.
Lemma he_interrupted_post a (s o : obj) : he_prune e = false -> at_post (oattrs s) = None -> interrupted (he_fit e a) s o -> at_post (oattrs o) = None.
Proof. intros Hp Hs H. rewrite (hyper_interrupted _ _ _ _ _ _ _ _ _ _ _ a s o Hp H). exact Hs. Qed.
Lemma he_interrupted {O} (val : option P -> P -> O) init a (s o : obj) :
  he_prune e = false -> at_post (oattrs s) = None -> interrupted (he_fit e a) s o ->
  (forall x c, query_matrix x c -> he_query e val init o x = Err ValueError) /\
  (forall x, exists ex, he_query e val init o x = Err ex) /\ he_importance o = Err ValueError.
Proof. intros Hp Hs H. apply he_unfitted_queries. eapply he_interrupted_post; eauto. Qed.
Lemma he_grow_interrupted {O} (val : option P -> P -> O) init cands v (s o : obj) :
  at_post (oattrs s) = None -> interrupted (he_grow e cands v) s o ->
  (forall x c, query_matrix x c -> he_query e val init o x = Err ValueError) /\
  (forall x, exists ex, he_query e val init o x = Err ex) /\ he_importance o = Err ValueError.
Proof.
  intros Hs H. apply he_unfitted_queries. apply front_interrupted in H; [|apply ohfit_front]. destruct H as [_ ->]. exact Hs.
Qed.

(** Every refit of a hyperplane tree first removes the children of the old tree. *)
Lemma he_refit_interrupted {O} (val : option P -> P -> O) init a i d v1 v2 c1 c2 v x n :
  let s := hyper_obj (Split i d v1 v2 c1 c2) in
  he_validate e (i_prior i) (snd a) = Ok v -> i_n_dim i = Some n -> query_matrix x n ->
  (exists q, q < query_rows x /\ he_back e (query_arr (he_cx e) x n) d q = true) ->
  exists o, interrupted (he_fit e a) s o /\ is_fitted o = true /\ he_query e val init o x = Err AttributeError.
Proof.
  intros s Hv Hn Hx Hq. exists (set_c1 PyNone s). split.
  2:{ split; [reflexivity|]. apply (halfway_predict hyper_klass hyper_stored hyper_erased hyper_law) with (n := n); auto. }
  right. unfold he_fit, api_hfit, reading. change (at_prior (oattrs s)) with (i_prior i). unfold he_validate in Hv. rewrite Hv. cbn [lifted].
  set (m2 := if he_prune e then _ else _).
  assert (Hg : exists o l, fst ((he_grow e (fst a) v ;; m2) s) = set_c1 PyNone s :: o :: l).
  { destruct (then_prefix (he_grow e (fst a) v) m2 s) as (l & ->). unfold he_grow. cbn [ohfit]. unfold reading.
    match goal with |- context [(erase_base ;; ?m) s] => destruct (erase_first m s) as (o & l' & ->) end. cbn [app]. eauto. }
  destruct Hg as (o & l & Hg). exists [], (o :: l). split; [|discriminate]. exact Hg.
Qed.
End Hyper.

(** ** Short lists of feature names *)
Section Names.
Context {A V Y P S NM : Type}.
Variable F : feat A V.
Variable L : lik Y P S.
Variable X : nat -> nat -> A.
Variable y : nat -> Y.

(** If the best split is on a feature without a name, [_fit] fails after [split_dimension_] was assigned. *)
Lemma short_names (names names' : list NM) fuel idxs (s : obj (psplit NM V) S P) i d v1 v2 c1 c2 :
  pfit F L X y names fuel (at_level (oattrs s)) (at_prior (oattrs s)) idxs = Ok (Split i d v1 v2 c1 c2) ->
  length names' <= sd_dim d ->
  ofit F L X y names' fuel idxs s =
  ([set_split (mkPSplit (Some (Z.of_nat (sd_dim d))) (ps_name (at_split (oattrs s))) (ps_val (at_split (oattrs s)))) s], Some IndexError).
Proof.
  destruct fuel as [|fuel]; [discriminate|]. cbn [pfit ofit]. unfold reading. destruct idxs as [|row0 idxs]; [discriminate|].
  match goal with |- context [if ?b then _ else _] => destruct b end; [|discriminate].
  match goal with |- context [nth_error names ?x] => set (dim := x); destruct (nth_error names dim) end; [|discriminate].
  match goal with |- (let! x := ?r in _) = _ -> _ => destruct r; [|discriminate] end. cbn [rbind].
  match goal with |- (let! x := ?r in _) = _ -> _ => destruct r; [|discriminate] end. cbn [rbind].
  match goal with |- (let! x := ?r in _) = _ -> _ => destruct r; [|discriminate] end. cbn [rbind].
  match goal with |- (let! x := ?r in _) = _ -> _ => destruct r; [|discriminate] end. cbn [rbind].
  intros H. injection H as _ Ed _ _ _ _. assert (Ed' : sd_dim d = dim) by (rewrite <- Ed; reflexivity). rewrite Ed'. clear Ed Ed'. intros Hl.
  apply nth_error_None in Hl. rewrite Hl. reflexivity.
Qed.
(** The first assignments of a fit that finds a split. *)
Lemma first_assignments (names : list NM) fuel idxs (s : obj (psplit NM V) S P) i d v1 v2 c1 c2 :
  pfit F L X y names fuel (at_level (oattrs s)) (at_prior (oattrs s)) idxs = Ok (Split i d v1 v2 c1 c2) ->
  exists x l, fst (ofit F L X y names fuel idxs s) =
    set_split (mkPSplit (Some (Z.of_nat (sd_dim d))) (ps_name (at_split (oattrs s))) (ps_val (at_split (oattrs s)))) s :: x :: l.
Proof.
  destruct fuel as [|fuel]; [discriminate|]. cbn [pfit ofit]. unfold reading. destruct idxs as [|row0 idxs]; [discriminate|].
  match goal with |- context [if ?b then _ else _] => destruct b end; [|discriminate].
  match goal with |- context [nth_error names ?x] => set (dim := x); destruct (nth_error names dim) end; [|discriminate].
  match goal with |- (let! x := ?r in _) = _ -> _ => destruct r; [|discriminate] end. cbn [rbind].
  match goal with |- (let! x := ?r in _) = _ -> _ => destruct r; [|discriminate] end. cbn [rbind].
  match goal with |- (let! x := ?r in _) = _ -> _ => destruct r; [|discriminate] end. cbn [rbind].
  match goal with |- (let! x := ?r in _) = _ -> _ => destruct r; [|discriminate] end. cbn [rbind].
  intros H. injection H as _ Ed _ _ _ _. assert (Ed' : sd_dim d = dim) by (rewrite <- Ed; reflexivity). rewrite Ed'. clear Ed Ed'.
  match goal with |- context [fst ((?a ;; ?b) s)] => destruct (then_prefix a b s) as (l & ->) end.
  match goal with |- context [fst ((?a ;; ?b) s)] => destruct (then_prefix a b s) as (l' & ->) end.
  do 2 eexists. reflexivity.
Qed.
End Names.

(** ** Fits of perpendicular trees that stop half-way *)
Section Halfway.
Context {E A V Y P NM : Type}.
Variable e : perp_est E A V Y P NM.
Notation obj := (obj (psplit NM V) R P).
Definition pe_tree (v : valid A Y NM) (names : list NM) (lvl : nat) (pa : option P) : res (tree (pdesc NM V) R P) :=
  pfit_root (pe_F e) (pe_L e) (entry (pe_x0 e) (v_X v)) (target (pe_y0 e) v) names lvl pa (len (v_X v)) (cols (v_X v)).

Lemma pe_fit_grow a (s : obj) v : pe_validate e (at_prior (oattrs s)) a = Ok v ->
  pe_fit e a s = (pe_grow e v ;; (if pe_prune e then prune_obj perp_klass (pe_same e) else done)) s.
Proof. intros Hv. unfold pe_fit, api_fit, reading. unfold pe_validate in Hv. rewrite Hv. reflexivity. Qed.
Lemma pe_grow_outcome v (s : obj) : outcome_of (pe_grow e v) s = let! t := pe_tree v (v_names v) (at_level (oattrs s)) (at_prior (oattrs s)) in Ok (perp_obj t).
Proof. apply ofit_outcome. Qed.

(** Pruning a split between two leaves first sets [child1_] to None. *)
Lemma pe_prune_interrupted a (s : obj) v i d v1 v2 i1 i2 :
  let t := Split i d v1 v2 (Leaf i1) (Leaf i2) in
  pe_prune e = true -> pe_validate e (at_prior (oattrs s)) a = Ok v ->
  pe_tree v (v_names v) (at_level (oattrs s)) (at_prior (oattrs s)) = Ok t -> pe_same e (i_post i1) (i_post i2) = true ->
  interrupted (pe_fit e a) s (set_c1 PyNone (perp_obj t)) /\ outcome_of (pe_fit e a) s = Ok (perp_obj (Leaf i)).
Proof.
  intros t Hp Hv Ht Hs. assert (Hg := pe_grow_outcome v s). rewrite Ht in Hg. cbn [rbind] in Hg. split.
  - right. rewrite (pe_fit_grow a s v Hv), Hp. unfold andthen. unfold outcome_of in Hg. destruct (pe_grow e v s) as [tr [ex|]]; [discriminate|].
    injection Hg as ->. destruct (halfway_prune perp_klass perp_stored perp_erased perp_law (pe_same e) i i1 i2 d v1 v2 Hs) as (t2 & Hn & Hf).
    unfold perp_obj, t in *. destruct (prune_obj _ _ _) as [tp ep]. cbn [fst] in *. subst tp. exists tr, t2. auto.
  - unfold outcome_of. rewrite (pe_fit_grow a s v Hv), Hp. fold (outcome_of (pe_grow e v;; prune_obj perp_klass (pe_same e)) s).
    rewrite outcome_then, Hg. cbn [rbind]. unfold perp_obj. rewrite (prune_obj_of _ _ _ perp_law), prune_correct. unfold t. cbn [prune_bu rbind]. rewrite Hs. reflexivity.
Qed.

(** When the best split is along a feature without a name, the fit assigns [split_dimension_] and then raises IndexError. *)
Lemma pe_short_names a (s : obj) v names i d v1 v2 c1 c2 :
  pe_validate e (at_prior (oattrs s)) a = Ok v ->
  pe_tree v names (at_level (oattrs s)) (at_prior (oattrs s)) = Ok (Split i d v1 v2 c1 c2) -> length (v_names v) <= sd_dim d ->
  raised (pe_fit e a) s IndexError
    (set_split (mkPSplit (Some (Z.of_nat (sd_dim d))) (ps_name (at_split (oattrs s))) (ps_val (at_split (oattrs s)))) s).
Proof.
  intros Hv Ht Hl. unfold raised. rewrite (pe_fit_grow a s v Hv).
  unfold andthen, pe_grow, ofit_root. erewrite short_names; [split; reflexivity| |exact Hl]. exact Ht.
Qed.
(** Interrupted after the assignment of [split_dimension_]. *)
Lemma pe_inside a (s : obj) v i d v1 v2 c1 c2 : pe_validate e (at_prior (oattrs s)) a = Ok v ->
  pe_tree v (v_names v) (at_level (oattrs s)) (at_prior (oattrs s)) = Ok (Split i d v1 v2 c1 c2) ->
  interrupted (pe_fit e a) s
    (set_split (mkPSplit (Some (Z.of_nat (sd_dim d))) (ps_name (at_split (oattrs s))) (ps_val (at_split (oattrs s)))) s).
Proof.
  intros Hv Ht. right. rewrite (pe_fit_grow a s v Hv).
  match goal with |- context [fst ((?a ;; ?b) s)] => destruct (then_prefix a b s) as (l & ->) end.
  unfold pe_grow, ofit_root. destruct (first_assignments _ _ _ _ _ _ _ s i d v1 v2 c1 c2 Ht) as (x & l' & ->).
  exists [], (x :: l' ++ l). split; [reflexivity|discriminate].
Qed.
End Halfway.
