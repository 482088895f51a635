(** * Properties of call histories: C29-C33, C46 and C56.

    [reachable fit s0 s]: the estimator is in state [s] after any history of calls of [fit] that succeeded, raised, or were
    interrupted between two attribute assignments.  Queries assign no attribute (base.py:76-193, 240-290), so they do not
    occur in histories.  The statements about any estimator [e] cover all four classes for every number format, prior,
    optimizer and dtype conversion; [clf_est], [reg_est], [hclf_est], [hreg_est] are the classes over the reals. *)
From Coq Require Import QArith Qreals Reals.
From Verif Require Import Prelude Tree Perp RealOps Clf Reg Api Importance Spec OptProofs ApiSpec Hyper Object ObjectSpec Validate Model ModelSpec.
From Verif Require Import ValidateProofs ModelLemmas ModelClasses ModelTargets Witness ModelWitness ModelHyperWitness.
Local Open Scope nat_scope.

(** ** C29 *)
Theorem C29_unfitted {E A V Y P NM O St} (e : perp_est E A V Y P NM) (val : option P -> P -> O) init (step : pdesc NM V -> bool -> St) prior s :
  never_fitted (pe_fit e) (pe_new prior) s ->
  (forall x c, query_matrix x c -> pe_query e val init s x = Err ValueError /\ pe_paths e step s x = Err ValueError) /\
  (forall x, exists ex, pe_query e val init s x = Err ex) /\ pe_importance s = Err ValueError.
Proof. exact (pe_never_queries e val init step prior s). Qed.
Print Assumptions C29_unfitted.
Theorem C29_unfitted_hyper {E A W C J Q Y P NM O} (e : hyper_est E A W C J Q Y P NM) (val : option P -> P -> O) init prior s :
  never_fitted (he_fit e) (he_new prior) s ->
  (forall x c, query_matrix x c -> he_query e val init s x = Err ValueError) /\
  (forall x, exists ex, he_query e val init s x = Err ex) /\ he_importance s = Err ValueError.
Proof. exact (he_never_queries e val init prior s). Qed.
Print Assumptions C29_unfitted_hyper.
Theorem C29_columns {E A V Y P NM O St} (e : perp_est E A V Y P NM) (val : option P -> P -> O) init (step : pdesc NM V -> bool -> St) a s o x n c :
  query_matrix (fa_X a) n -> outcome_of (pe_fit e a) s = Ok o -> query_matrix x c ->
  if Nat.eqb c n then
    (exists r, pe_query e val init o x = Ok r /\ length r = query_rows x) /\ (exists r, pe_paths e step o x = Ok r)
  else pe_query e val init o x = Err ValueError /\ pe_paths e step o x = Err ValueError.
Proof. exact (pe_columns e val init step a s o x n c). Qed.
Print Assumptions C29_columns.
Theorem C29_columns_hyper {E A W C J Q Y P NM O} (e : hyper_est E A W C J Q Y P NM) (val : option P -> P -> O) init a s o x n c :
  query_matrix (fa_X (snd a)) n -> outcome_of (he_fit e a) s = Ok o -> query_matrix x c ->
  if Nat.eqb c n then exists r, he_query e val init o x = Ok r /\ length r = query_rows x
  else he_query e val init o x = Err ValueError.
Proof. exact (he_columns e val init a s o x n c). Qed.
Print Assumptions C29_columns_hyper.
(** The exception of a query that is not a matrix: a zero-dimensional array raises IndexError. *)
Theorem C29_zero_dim {E A NM U D S P O} (K : klass U D) (cx : cast E A) (x_name : nat -> NM) go1 go2 (val : option P -> P -> O) init (o : obj U S P) t v :
  api_query K cx x_name go1 go2 val init o (XArray (mkArr [] t [v])) = Err IndexError.
Proof. exact (zero_d_query K cx x_name go1 go2 val init o t v). Qed.
Print Assumptions C29_zero_dim.
(** A history with a rejected fit, a fitted classifier with two features, and queries with two and three columns. *)
Example C29_case :
  (exists s, never_fitted (pe_fit (est (w_h false))) (new_clf false) s /\ raised (pe_fit (est (w_h false)) w_bad) (new_clf false) ValueError s) /\
  (exists o, outcome_of (pe_fit (est (w_h false)) w_args1) (new_clf false) = Ok o) /\ query_matrix (fa_X w_args1) 2 /\
  query_matrix (zquery 2 [0;1]%Z) 2 /\ query_matrix (zquery 3 [0;1;1]%Z) 3.
Proof. exact (conj w_never (conj w_fit1 (conj w_matrix1 (conj (zquery_matrix 2 _) (zquery_matrix 3 _))))). Qed.

(** ** C30 *)
Theorem C30_refit {E A V Y P NM} (e : perp_est E A V Y P NM) prior s a :
  reachable (pe_fit e) (pe_new prior) s -> outcome_of (pe_fit e a) s = outcome_of (pe_fit e a) (pe_new prior).
Proof. exact (pe_refit e prior s a). Qed.
Print Assumptions C30_refit.
Theorem C30_refit_hyper {E A W C J Q Y P NM} (e : hyper_est E A W C J Q Y P NM) prior s a :
  reachable (he_fit e) (he_new prior) s -> outcome_of (he_fit e a) s = outcome_of (he_fit e a) (he_new prior).
Proof. exact (he_refit e prior s a). Qed.
Print Assumptions C30_refit_hyper.
(** Rejected input: no attribute is assigned. *)
Theorem C30_rejected {E A V Y P NM} (e : perp_est E A V Y P NM) a prior s ex :
  reachable (pe_fit e) (pe_new prior) s -> pe_validate e prior a = Err ex -> pe_fit e a s = ([], Some ex).
Proof. exact (pe_invalid_history e a prior s ex). Qed.
Print Assumptions C30_rejected.
Theorem C30_rejected_hyper {E A W C J Q Y P NM} (e : hyper_est E A W C J Q Y P NM) a prior s ex :
  reachable (he_fit e) (he_new prior) s -> he_validate e prior (snd a) = Err ex -> he_fit e a s = ([], Some ex).
Proof. exact (he_invalid_history e a prior s ex). Qed.
Print Assumptions C30_rejected_hyper.
(** A fitted, an interrupted and a corrupted state (see C46) are reachable, and input with labels 0 and 2 is rejected. *)
Example C30_case :
  (exists o, reachable (pe_fit (est (w_h false))) (new_clf false) o /\ is_fitted o = true) /\
  pe_validate (est (w_h false)) (h_prior (w_h false)) w_bad = Err ValueError.
Proof. exact w_refit_case. Qed.

(** ** C31 *)
Theorem C31_labels {E A V Y P NM} (lab : Y -> fl) (n_classes : P -> nat) (e : perp_est E A V Y P NM) p s a n m :
  clf_checks n_classes lab (pe_check e) -> permutes (f_argsort (pe_F e)) ->
  reachable (pe_fit e) (pe_new (Some p)) s -> 2 <= n_classes p -> supported (a_dtype (fa_y a)) = true -> matrix_args a n m ->
  (right_target (pe_cy e) lab (n_classes p) (fa_y a) -> exists o, outcome_of (pe_fit e a) s = Ok o) /\
  (~ right_target (pe_cy e) lab (n_classes p) (fa_y a) -> pe_fit e a s = ([], Some ValueError)).
Proof. exact (pe_labels lab n_classes e p s a n m). Qed.
Print Assumptions C31_labels.
Theorem C31_labels_hyper {E A W C J Q Y P NM} (lab : Y -> fl) (n_classes : P -> nat) (e : hyper_est E A W C J Q Y P NM) p s a n m :
  clf_checks n_classes lab (he_check e) ->
  reachable (he_fit e) (he_new (Some p)) s -> 2 <= n_classes p -> supported (a_dtype (fa_y (snd a))) = true -> matrix_args (snd a) n m ->
  (right_target (he_cy e) lab (n_classes p) (fa_y (snd a)) -> exists v, he_validate e (Some p) (snd a) = Ok v) /\
  (~ right_target (he_cy e) lab (n_classes p) (fa_y (snd a)) -> he_fit e a s = ([], Some ValueError)).
Proof. exact (he_labels lab n_classes e p s a n m). Qed.
Print Assumptions C31_labels_hyper.
(** With an empty prior every constant target passes the check: [k >= 2] cannot be dropped. *)
Theorem C31_empty_prior r n t : clf_check_target (@length R) (Some []) (mkArr [S n] t (repeat (Some r) (S n))) = Ok tt.
Proof. exact (empty_prior_target r n t). Qed.
Print Assumptions C31_empty_prior.
Example C31_case h : clf_checks (@length R) (Some : R -> fl) (pe_check (est h)) /\ clf_checks (@length R) (Some : R -> fl) (he_check (hest h)) /\
  permutes (f_argsort (pe_F (est h))) /\ matrix_args w_args1 8 2 /\ matrix_args w_bad 8 2 /\
  right_target id_cast (Some : R -> fl) 2 (fa_y w_args1) /\ ~ right_target id_cast (Some : R -> fl) 2 (fa_y w_bad).
Proof. exact (w_labels_case h). Qed.

(** ** C32: false of the code *)
Theorem C32_one_row_refuted {E A V Y P NM} (lab : Y -> fl) (n_classes : P -> nat) (e : perp_est E A V Y P NM) prior s a :
  clf_checks n_classes lab (pe_check e) \/ reg_checks lab (pe_check e) ->
  reachable (pe_fit e) (pe_new prior) s -> Forall (fun n => n = 1) (a_shape (fa_y a)) -> supported (a_dtype (fa_y a)) = true ->
  pe_fit e a s = ([], Some ValueError).
Proof. exact (pe_one_row lab n_classes e prior s a). Qed.
Print Assumptions C32_one_row_refuted.
Theorem C32_one_row_hyper_refuted {E A W C J Q Y P NM} (lab : Y -> fl) (n_classes : P -> nat) (e : hyper_est E A W C J Q Y P NM) prior s a :
  clf_checks n_classes lab (he_check e) \/ reg_checks lab (he_check e) ->
  reachable (he_fit e) (he_new prior) s -> Forall (fun n => n = 1) (a_shape (fa_y (snd a))) -> supported (a_dtype (fa_y (snd a))) = true ->
  he_fit e a s = ([], Some ValueError).
Proof. exact (he_one_row lab n_classes e prior s a). Qed.
Print Assumptions C32_one_row_hyper_refuted.
(** One row with one target: [X.shape = (1, 2)], [y.shape = (1,)]. *)
Example C32_case srt h : Forall (fun n => n = 1) (a_shape (fa_y (zargs 1 2 [3;4]%Z [0] w_names))) /\
  supported (a_dtype (fa_y (zargs 1 2 [3;4]%Z [0] w_names))) = true /\
  reg_checks (Some : R -> fl) (pe_check (reg_est (@id_cast) id_cast x_names srt h)).
Proof. exact (w_one_row_case srt h). Qed.

(** ** C33: false of the classification trees, true of the regression trees *)
Theorem C33_no_prior_refuted {E A V Y P NM} (lab : Y -> fl) (n_classes : P -> nat) (e : perp_est E A V Y P NM) s a :
  clf_checks n_classes lab (pe_check e) -> reachable (pe_fit e) (pe_new None) s ->
  (exists ex, pe_fit e a s = ([], Some ex)) /\
  (supported (a_dtype (fa_y a)) = true -> ndim (squeeze (fa_y a)) = 1 -> pe_fit e a s = ([], Some TypeError)).
Proof. exact (pe_no_prior lab n_classes e s a). Qed.
Print Assumptions C33_no_prior_refuted.
Theorem C33_no_prior_hyper_refuted {E A W C J Q Y P NM} (lab : Y -> fl) (n_classes : P -> nat) (e : hyper_est E A W C J Q Y P NM) s a :
  clf_checks n_classes lab (he_check e) -> reachable (he_fit e) (he_new None) s ->
  (exists ex, he_fit e a s = ([], Some ex)) /\
  (supported (a_dtype (fa_y (snd a))) = true -> ndim (squeeze (fa_y (snd a))) = 1 -> he_fit e a s = ([], Some TypeError)).
Proof. exact (he_no_prior lab n_classes e s a). Qed.
Print Assumptions C33_no_prior_hyper_refuted.
Theorem C33_regression {E A V Y P NM} (lab : Y -> fl) (e : perp_est E A V Y P NM) prior s a n m :
  reg_checks lab (pe_check e) -> permutes (f_argsort (pe_F e)) -> reachable (pe_fit e) (pe_new prior) s ->
  supported (a_dtype (fa_y a)) = true -> ndim (squeeze (fa_y a)) = 1 -> matrix_args a n m ->
  exists o, outcome_of (pe_fit e a) s = Ok o.
Proof. exact (pe_reg_accepts lab e prior s a n m). Qed.
Print Assumptions C33_regression.
Example C33_case h : reg_checks (Some : R -> fl) (pe_check (reg_est (@id_cast) id_cast x_names sort_R h)) /\
  permutes (f_argsort (pe_F (reg_est (@id_cast) id_cast x_names sort_R h))) /\
  supported (a_dtype (fa_y w_args1)) = true /\ ndim (squeeze (fa_y w_args1)) = 1 /\ matrix_args w_args1 8 2.
Proof. exact (w_default_case h). Qed.

(** ** C46: true of the first fit before pruning starts, false otherwise *)
Theorem C46_first_fit {E A V Y P NM O St} (e : perp_est E A V Y P NM) (val : option P -> P -> O) init (step : pdesc NM V -> bool -> St) a s o :
  pe_prune e = false -> at_post (oattrs s) = None -> interrupted (pe_fit e a) s o ->
  (forall x c, query_matrix x c -> pe_query e val init o x = Err ValueError /\ pe_paths e step o x = Err ValueError) /\
  (forall x, exists ex, pe_query e val init o x = Err ex) /\ pe_importance o = Err ValueError.
Proof. exact (pe_interrupted e val init step a s o). Qed.
Print Assumptions C46_first_fit.
Theorem C46_first_grow {E A V Y P NM O St} (e : perp_est E A V Y P NM) (val : option P -> P -> O) init (step : pdesc NM V -> bool -> St) v s o :
  at_post (oattrs s) = None -> interrupted (pe_grow e v) s o ->
  (forall x c, query_matrix x c -> pe_query e val init o x = Err ValueError /\ pe_paths e step o x = Err ValueError) /\
  (forall x, exists ex, pe_query e val init o x = Err ex) /\ pe_importance o = Err ValueError.
Proof. exact (pe_grow_interrupted e val init step v s o). Qed.
Print Assumptions C46_first_grow.
Theorem C46_first_fit_hyper {E A W C J Q Y P NM O} (e : hyper_est E A W C J Q Y P NM) (val : option P -> P -> O) init a s o :
  he_prune e = false -> at_post (oattrs s) = None -> interrupted (he_fit e a) s o ->
  (forall x c, query_matrix x c -> he_query e val init o x = Err ValueError) /\
  (forall x, exists ex, he_query e val init o x = Err ex) /\ he_importance o = Err ValueError.
Proof. exact (he_interrupted e val init a s o). Qed.
Print Assumptions C46_first_fit_hyper.
Theorem C46_first_grow_hyper {E A W C J Q Y P NM O} (e : hyper_est E A W C J Q Y P NM) (val : option P -> P -> O) init cands v s o :
  at_post (oattrs s) = None -> interrupted (he_grow e cands v) s o ->
  (forall x c, query_matrix x c -> he_query e val init o x = Err ValueError) /\
  (forall x, exists ex, he_query e val init o x = Err ex) /\ he_importance o = Err ValueError.
Proof. exact (he_grow_interrupted e val init cands v s o). Qed.
Print Assumptions C46_first_grow_hyper.
(** Interrupted while pruning: the model says it is fitted and [predict] raises AttributeError. *)
Theorem C46_prune_interrupt_refuted : exists h a o x,
  interrupted (pe_fit (est h) a) (pe_new (h_prior h)) o /\ is_fitted o = true /\ query_matrix x 1 /\
  (exists o' r, outcome_of (pe_fit (est h) a) (pe_new (h_prior h)) = Ok o' /\
     pe_query (est h) (fun _ p => INR (clf_predict_leaf p)) 0%R o' x = Ok r) /\
  pe_query (est h) (fun _ p => INR (clf_predict_leaf p)) 0%R o x = Err AttributeError.
Proof. exact prune_interrupt. Qed.
Print Assumptions C46_prune_interrupt_refuted.
(** A refit along a feature without a name raises IndexError and leaves a different model. *)
Theorem C46_short_names {E A V Y P NM} (e : perp_est E A V Y P NM) a s v names i d v1 v2 c1 c2 :
  pe_validate e (at_prior (oattrs s)) a = Ok v ->
  pe_tree e v names (at_level (oattrs s)) (at_prior (oattrs s)) = Ok (Split i d v1 v2 c1 c2) -> length (v_names v) <= sd_dim d ->
  raised (pe_fit e a) s IndexError
    (set_split (mkPSplit (Some (Z.of_nat (sd_dim d))) (ps_name (at_split (oattrs s))) (ps_val (at_split (oattrs s)))) s).
Proof. exact (pe_short_names e a s v names i d v1 v2 c1 c2). Qed.
Print Assumptions C46_short_names.
Theorem C46_refit_raises_refuted : exists h a1 a2 o1 o2 x r1 r2,
  outcome_of (pe_fit (est h) a1) (pe_new (h_prior h)) = Ok o1 /\
  raised (pe_fit (est h) a2) o1 IndexError o2 /\
  pe_query (est h) (fun _ p => INR (clf_predict_leaf p)) 0%R o1 x = Ok r1 /\
  pe_query (est h) (fun _ p => INR (clf_predict_leaf p)) 0%R o2 x = Ok r2 /\ r1 <> r2.
Proof. exact refit_raises. Qed.
Print Assumptions C46_refit_raises_refuted.
(** Every refit of a hyperplane tree with a split has a point at which an interrupt makes the old model unusable. *)
Theorem C46_hyper_refit {E A W C J Q Y P NM O} (e : hyper_est E A W C J Q Y P NM) (val : option P -> P -> O) init a i d v1 v2 c1 c2 v x n :
  let s := hyper_obj (Split i d v1 v2 c1 c2) in
  he_validate e (i_prior i) (snd a) = Ok v -> i_n_dim i = Some n -> query_matrix x n ->
  (exists q, q < query_rows x /\ he_back e (ModelProofs.query_arr (he_cx e) x n) d q = true) ->
  exists o, interrupted (he_fit e a) s o /\ is_fitted o = true /\ he_query e val init o x = Err AttributeError.
Proof. exact (he_refit_interrupted e val init a i d v1 v2 c1 c2 v x n). Qed.
Print Assumptions C46_hyper_refit.
Theorem C46_hyper_refit_refuted : exists h a1 o1 o x r,
  outcome_of (he_fit (hest h) a1) (he_new (h_prior h)) = Ok o1 /\
  interrupted (he_fit (hest h) a1) o1 o /\ is_fitted o = true /\
  he_query (hest h) (fun _ p => INR (clf_predict_leaf p)) 0%R o1 x = Ok r /\
  he_query (hest h) (fun _ p => INR (clf_predict_leaf p)) 0%R o x = Err AttributeError.
Proof. exact hyper_refit_interrupt. Qed.
Print Assumptions C46_hyper_refit_refuted.
(** A state strictly inside a first fit. *)
Example C46_case : pe_prune (est (w_h false)) = false /\ at_post (oattrs (new_clf false)) = None /\
  exists o, interrupted (pe_fit (est (w_h false)) w_args1) (new_clf false) o /\ o <> new_clf false.
Proof. exact w_inside. Qed.

(** ** C56 *)
Theorem C56_clf {E} (cx cy : cast E R) nm srt h a s o :
  reachable (pe_fit (clf_est cx cy nm srt h)) (pe_new (h_prior h)) s ->
  outcome_of (pe_fit (clf_est cx cy nm srt h) a) s = Ok o ->
  exists v t, pe_validate (clf_est cx cy nm srt h) (h_prior h) a = Ok v /\ clf_fit srt h (set_of v) = Ok t /\
    perp_answers cx (clf_est cx cy nm srt h) (fun p => INR (clf_predict_leaf p)) t o (ts_dim (set_of v)) /\
    (forall x, query_matrix x (ts_dim (set_of v)) ->
       pe_query (clf_est cx cy nm srt h) (fun _ p => Some (clf_posterior_mean p)) None o x =
       Ok (clf_predict_proba t (query_entries cx x (ts_dim (set_of v))) (query_rows x))).
Proof. exact (clf_objects cx cy nm srt h a s o). Qed.
Print Assumptions C56_clf.
Theorem C56_clf_complete {E} (cx cy : cast E R) nm srt h a s v :
  reachable (pe_fit (clf_est cx cy nm srt h)) (pe_new (h_prior h)) s ->
  pe_validate (clf_est cx cy nm srt h) (h_prior h) a = Ok v ->
  outcome_of (pe_fit (clf_est cx cy nm srt h) a) s = let! t := clf_fit srt h (set_of v) in Ok (perp_obj t).
Proof. exact (clf_objects_complete cx cy nm srt h a s v). Qed.
Print Assumptions C56_clf_complete.
Theorem C56_reg {E} (cx cy : cast E R) nm srt h a s o :
  reachable (pe_fit (reg_est cx cy nm srt h)) (pe_new (h_prior h)) s ->
  outcome_of (pe_fit (reg_est cx cy nm srt h) a) s = Ok o ->
  exists v t, pe_validate (reg_est cx cy nm srt h) (h_prior h) a = Ok v /\ reg_fit srt h (set_of v) = Ok t /\
    perp_answers cx (reg_est cx cy nm srt h) reg_predict_leaf t o (ts_dim (set_of v)).
Proof. exact (reg_objects cx cy nm srt h a s o). Qed.
Print Assumptions C56_reg.
Theorem C56_reg_complete {E} (cx cy : cast E R) nm srt h a s v :
  reachable (pe_fit (reg_est cx cy nm srt h)) (pe_new (h_prior h)) s ->
  pe_validate (reg_est cx cy nm srt h) (h_prior h) a = Ok v ->
  outcome_of (pe_fit (reg_est cx cy nm srt h) a) s = let! t := reg_fit srt h (set_of v) in Ok (perp_obj t).
Proof. exact (reg_objects_complete cx cy nm srt h a s v). Qed.
Print Assumptions C56_reg_complete.
Theorem C56_hclf {E C} (cx cy : cast E R) nm srt (pre : C -> list R) h a s o :
  reachable (he_fit (hclf_est cx cy nm srt pre h)) (he_new (h_prior h)) s ->
  outcome_of (he_fit (hclf_est cx cy nm srt pre h) a) s = Ok o ->
  exists v t, he_validate (hclf_est cx cy nm srt pre h) (h_prior h) (snd a) = Ok v /\ hclf_fit pre srt (fst a) h (hset_of v) = Ok t /\
    hyper_answers cx (hclf_est cx cy nm srt pre h) (fun p => INR (clf_predict_leaf p)) t o (hs_dim (hset_of v)) /\
    (forall x, query_matrix x (hs_dim (hset_of v)) ->
       he_query (hclf_est cx cy nm srt pre h) (fun _ p => Some (clf_posterior_mean p)) None o x =
       Ok (hclf_predict_proba t (query_row cx x (hs_dim (hset_of v))) (query_rows x))).
Proof. exact (hclf_objects cx cy nm srt pre h a s o). Qed.
Print Assumptions C56_hclf.
Theorem C56_hreg {E C} (cx cy : cast E R) nm srt (pre : C -> list R) h a s o :
  reachable (he_fit (hreg_est cx cy nm srt pre h)) (he_new (h_prior h)) s ->
  outcome_of (he_fit (hreg_est cx cy nm srt pre h) a) s = Ok o ->
  exists v t, he_validate (hreg_est cx cy nm srt pre h) (h_prior h) (snd a) = Ok v /\ hreg_fit pre srt (fst a) h (hset_of v) = Ok t /\
    hyper_answers cx (hreg_est cx cy nm srt pre h) reg_predict_leaf t o (hs_dim (hset_of v)).
Proof. exact (hreg_objects cx cy nm srt pre h a s o). Qed.
Print Assumptions C56_hreg.
(** The hypotheses are met by [C29_case] and by the hyperplane fit of [C46_hyper_refit_refuted]. *)
Example C56_case : exists o r, outcome_of (pe_fit (est (w_h false)) w_args1) (new_clf false) = Ok o /\
  pe_query (est (w_h false)) (fun _ p => INR (clf_predict_leaf p)) 0%R o (zquery 2 [0;1]%Z) = Ok r /\ r = [0%R].
Proof. exact w_answer. Qed.
