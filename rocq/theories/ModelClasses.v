(** * ModelClasses: the four classes over the reals: objects and the trees of Api.v and Hyper.v. *)
From Coq Require Import Reals Lia.
From Verif Require Import Prelude Tree Perp RealOps Clf Reg Api Importance Spec PruneProofs ApiSpec ApiProofs Hyper HyperSpec HyperProofs HyperApi
  Object ObjectSpec ObjectProofs Validate ValidateProofs Model ModelSpec ModelProofs ModelFit ModelLemmas.
Local Open Scope nat_scope.

Lemma perp_importance_of {P} (t : tree (pdesc string R) R P) : pe_importance (perp_obj t) = feature_importance t.
Proof.
  unfold pe_importance, api_importance, feature_importance, perp_obj, ensure_is_fitted, is_fitted. rewrite obj_of_post. cbn [rbind].
  destruct (obj_of_fields perp_stored perp_erased t) as (_ & _ & -> & _). destruct (i_n_dim (info t)) as [n|]; [|reflexivity].
  rewrite (oimportance_of perp_klass _ _ perp_law perp_upd update_importance); [reflexivity|reflexivity|].
  intros i d a b c1 c2 acc. cbn [update_importance]. unfold perp_upd. destruct (sd_dim d <? length acc); reflexivity.
Qed.
Lemma hyper_importance_of {P} (t : tree (plane (list R) (list R)) R P) : he_importance (hyper_obj t) = hyper_feature_importance t.
Proof.
  unfold he_importance, api_importance, hyper_feature_importance, hyper_obj, ensure_is_fitted, is_fitted. rewrite obj_of_post. cbn [rbind].
  destruct (obj_of_fields hyper_stored hyper_erased t) as (_ & _ & -> & _). destruct (i_n_dim (info t)) as [n|]; [|reflexivity].
  rewrite (oimportance_of hyper_klass _ _ hyper_law hyper_upd (fun t fi => Ok (hyper_importance t fi))); reflexivity.
Qed.

Section Classes.
Context {E : Type}.
Variables cx cy : cast E R.
Variable nm : nat -> string.
Variable srt : (nat -> R) -> nat -> list nat.

Lemma perp_answers_of {P} (e : perp_est E R R R P string) leaf t c prec :
  pe_cx e = cx -> pe_F e = feat_R prec srt -> pe_x0 e = 0%R -> i_n_dim (info t) = Some c -> perp_answers cx e leaf t (perp_obj t) c.
Proof.
  intros Hc HF H0 Hn. split; [reflexivity|]. split; [|split; [apply perp_importance_of|split]].
  - intros x Hx. unfold pe_query, pe_paths, perp_obj.
    rewrite !(query_fitted perp_klass _ _ perp_law (pe_cx e) (pe_name e) (pe_left e) (pe_right e) _ _ t x c Hn Hx).
    rewrite (paths_fitted perp_klass _ _ perp_law (pe_cx e) (pe_name e) (pe_left e) (pe_right e) _ t x c Hn Hx).
    unfold pe_left, pe_right. rewrite HF, H0, Hc. repeat split; reflexivity.
  - unfold api_depth, perp_obj. rewrite (odepth_of _ _ _ perp_law). reflexivity.
  - unfold api_n_leaves, perp_obj. rewrite (on_leaves_of _ _ _ perp_law). reflexivity.
Qed.

Lemma clf_objects h a s o : reachable (pe_fit (clf_est cx cy nm srt h)) (pe_new (h_prior h)) s ->
  outcome_of (pe_fit (clf_est cx cy nm srt h) a) s = Ok o ->
  exists v t, pe_validate (clf_est cx cy nm srt h) (h_prior h) a = Ok v /\ clf_fit srt h (set_of v) = Ok t /\
    perp_answers cx (clf_est cx cy nm srt h) (fun p => INR (clf_predict_leaf p)) t o (ts_dim (set_of v)) /\
    (forall x, query_matrix x (ts_dim (set_of v)) ->
       pe_query (clf_est cx cy nm srt h) (fun _ p => Some (clf_posterior_mean p)) None o x =
       Ok (clf_predict_proba t (query_entries cx x (ts_dim (set_of v))) (query_rows x))).
Proof.
  intros Hr Ho. rewrite (pe_refit _ _ s a Hr) in Ho. apply perp_fits in Ho as (v & t & Hv & Ht & -> & Hn).
  exists v, t. split; [exact Hv|]. split; [exact Ht|]. split; [apply perp_answers_of with (prec := h_prec h); auto|].
  intros x Hx. unfold pe_query, perp_obj.
  rewrite (query_fitted perp_klass _ _ perp_law _ _ (pe_left (clf_est cx cy nm srt h)) (pe_right (clf_est cx cy nm srt h)) _ _ t x _ Hn Hx). reflexivity.
Qed.
Lemma clf_objects_complete h a s v : reachable (pe_fit (clf_est cx cy nm srt h)) (pe_new (h_prior h)) s ->
  pe_validate (clf_est cx cy nm srt h) (h_prior h) a = Ok v ->
  outcome_of (pe_fit (clf_est cx cy nm srt h) a) s = let! t := clf_fit srt h (set_of v) in Ok (perp_obj t).
Proof.
  intros Hr Hv. rewrite (pe_refit _ _ s a Hr). unfold pe_fit. rewrite perp_outcome. cbv beta. unfold pe_validate in Hv.
  change (at_prior (oattrs (pe_new (h_prior h)))) with (h_prior h). rewrite Hv. reflexivity.
Qed.
Lemma reg_objects h a s o : reachable (pe_fit (reg_est cx cy nm srt h)) (pe_new (h_prior h)) s ->
  outcome_of (pe_fit (reg_est cx cy nm srt h) a) s = Ok o ->
  exists v t, pe_validate (reg_est cx cy nm srt h) (h_prior h) a = Ok v /\ reg_fit srt h (set_of v) = Ok t /\
    perp_answers cx (reg_est cx cy nm srt h) reg_predict_leaf t o (ts_dim (set_of v)).
Proof.
  intros Hr Ho. rewrite (pe_refit _ _ s a Hr) in Ho. apply perp_fits in Ho as (v & t & Hv & Ht & -> & Hn).
  exists v, t. split; [exact Hv|]. split; [exact Ht|]. apply perp_answers_of with (prec := h_prec h); auto.
Qed.
Lemma reg_objects_complete h a s v : reachable (pe_fit (reg_est cx cy nm srt h)) (pe_new (h_prior h)) s ->
  pe_validate (reg_est cx cy nm srt h) (h_prior h) a = Ok v ->
  outcome_of (pe_fit (reg_est cx cy nm srt h) a) s = let! t := reg_fit srt h (set_of v) in Ok (perp_obj t).
Proof.
  intros Hr Hv. rewrite (pe_refit _ _ s a Hr). unfold pe_fit. rewrite perp_outcome. cbv beta. unfold pe_validate in Hv.
  change (at_prior (oattrs (pe_new (h_prior h)))) with (h_prior h). rewrite Hv. reflexivity.
Qed.
(** With or without a prior a regression tree can be fitted. *)
Lemma reg_default_fit h a s v : reachable (pe_fit (reg_est cx cy nm srt h)) (pe_new (h_prior h)) s -> permutes srt ->
  pe_validate (reg_est cx cy nm srt h) (h_prior h) a = Ok v -> tset_ok (set_of v) ->
  exists o, outcome_of (pe_fit (reg_est cx cy nm srt h) a) s = Ok o.
Proof.
  intros Hr Hp Hv Hd. rewrite (reg_objects_complete h a s v Hr Hv).
  destruct (perp_fit_total (feat_R (h_prec h) srt) (reg_lik (h_pp h) (h_delta h)) reg_same (h_prune h) 0 (h_prior h) (set_of v) Hp Hd) as (t & Ht & _).
  unfold reg_fit. rewrite Ht. cbn [rbind]. eauto.
Qed.
Lemma reg_target_ok h a : supported (a_dtype (fa_y a)) = true -> ndim (squeeze (fa_y a)) = 1 ->
  forall n m, query_matrix (fa_X a) m -> query_rows (fa_X a) = n -> len (squeeze (fa_y a)) = n ->
  exists v, pe_validate (reg_est cx cy nm srt h) (h_prior h) a = Ok v /\ len (v_X v) = n /\ cols (v_X v) = m.
Proof.
  intros Ht Hd n m Hx Hr Hl. unfold pe_validate, validate. cbn [pe_cx pe_cy pe_name pe_check reg_est].
  unfold ensure_float64 at 1. change (a_dtype (squeeze (fa_y a))) with (a_dtype (fa_y a)). rewrite Ht. cbn [rbind].
  unfold reg_check_target, ndim, to_fl. cbn [a_shape]. unfold ndim in Hd. rewrite Hd. cbn [Nat.eqb negb rbind].
  destruct (normalize_query cx nm (fa_X a) m (fa_names a) Hx) as (nms & ->). cbn [rbind fst snd].
  unfold len at 2. cbn [a_shape]. change (hd 0 (a_shape (squeeze (fa_y a)))) with (len (squeeze (fa_y a))). rewrite Hl.
  unfold query_arr, len. cbn [a_shape hd]. rewrite Hr, Nat.eqb_refl. eexists. split; [reflexivity|]. cbn. auto.
Qed.

Context {C : Type}.
Variable pre : C -> list R.
Lemma hyper_answers_of {P} (e : hyper_est E R (list R) C _ _ R P string) leaf t c prec :
  he_cx e = cx -> he_G e = geo_R pre prec srt -> he_row e = row_of -> i_n_dim (info t) = Some c -> hyper_answers cx e leaf t (hyper_obj t) c.
Proof.
  intros Hc HG Hrow Hn. split; [reflexivity|]. split; [|split; [apply hyper_importance_of|split]].
  - intros x Hx. unfold he_query, hyper_obj.
    rewrite (query_fitted hyper_klass _ _ hyper_law (he_cx e) (he_name e) (he_back e) (he_front e) _ _ t x c Hn Hx).
    unfold he_back, he_front. rewrite HG, Hrow, Hc. reflexivity.
  - unfold api_depth, hyper_obj. rewrite (odepth_of _ _ _ hyper_law). reflexivity.
  - unfold api_n_leaves, hyper_obj. rewrite (on_leaves_of _ _ _ hyper_law). reflexivity.
Qed.
Lemma hclf_objects h a s o : reachable (he_fit (hclf_est cx cy nm srt pre h)) (he_new (h_prior h)) s ->
  outcome_of (he_fit (hclf_est cx cy nm srt pre h) a) s = Ok o ->
  exists v t, he_validate (hclf_est cx cy nm srt pre h) (h_prior h) (snd a) = Ok v /\ hclf_fit pre srt (fst a) h (hset_of v) = Ok t /\
    hyper_answers cx (hclf_est cx cy nm srt pre h) (fun p => INR (clf_predict_leaf p)) t o (hs_dim (hset_of v)) /\
    (forall x, query_matrix x (hs_dim (hset_of v)) ->
       he_query (hclf_est cx cy nm srt pre h) (fun _ p => Some (clf_posterior_mean p)) None o x =
       Ok (hclf_predict_proba t (query_row cx x (hs_dim (hset_of v))) (query_rows x))).
Proof.
  intros Hr Ho. rewrite (he_refit _ _ s a Hr) in Ho. apply hyper_fits in Ho as (v & t & Hv & Ht & -> & Hn).
  exists v, t. split; [exact Hv|]. split; [exact Ht|]. split; [apply hyper_answers_of with (prec := h_prec h); auto|].
  intros x Hx. unfold he_query, hyper_obj.
  rewrite (query_fitted hyper_klass _ _ hyper_law _ _ (he_back (hclf_est cx cy nm srt pre h)) (he_front (hclf_est cx cy nm srt pre h)) _ _ t x _ Hn Hx). reflexivity.
Qed.
Lemma hreg_objects h a s o : reachable (he_fit (hreg_est cx cy nm srt pre h)) (he_new (h_prior h)) s ->
  outcome_of (he_fit (hreg_est cx cy nm srt pre h) a) s = Ok o ->
  exists v t, he_validate (hreg_est cx cy nm srt pre h) (h_prior h) (snd a) = Ok v /\ hreg_fit pre srt (fst a) h (hset_of v) = Ok t /\
    hyper_answers cx (hreg_est cx cy nm srt pre h) reg_predict_leaf t o (hs_dim (hset_of v)).
Proof.
  intros Hr Ho. rewrite (he_refit _ _ s a Hr) in Ho. apply hyper_fits in Ho as (v & t & Hv & Ht & -> & Hn).
  exists v, t. split; [exact Hv|]. split; [exact Ht|]. apply hyper_answers_of with (prec := h_prec h); auto.
Qed.
End Classes.
