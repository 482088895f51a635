(** * ModelSpec: call histories of an estimator, and query matrices. *)
From Coq Require Import Reals.
From Verif Require Import Prelude Tree Perp RealOps Clf Reg Api Importance Hyper Object ObjectSpec Validate Model.
Local Open Scope nat_scope.

(** States of an estimator created in state [s0].  Queries assign no attribute, so only calls of [fit] count. *)
Section Histories.
Context {U S P Args : Type}.
Variable fit : Args -> @M U S P.
Variable s0 : obj U S P.

(** After any history of fits that succeed, raise, or are interrupted between two assignments. *)
Inductive reachable : obj U S P -> Prop :=
| reach_new : reachable s0
| reach_done a s o : reachable s -> outcome_of (fit a) s = Ok o -> reachable o
| reach_raised a s e o : reachable s -> raised (fit a) s e o -> reachable o
| reach_interrupted a s o : reachable s -> interrupted (fit a) s o -> reachable o.

(** After any history without a successful fit. *)
Inductive never_fitted : obj U S P -> Prop :=
| never_new : never_fitted s0
| never_raised a s e o : never_fitted s -> raised (fit a) s e o -> never_fitted o.
End Histories.

(** Queries that denote a matrix of numbers with [c] columns: a data frame, a nested list or two-dimensional array, a single row,
    or a scalar, of a numeric dtype. *)
Definition query_matrix {E NM} (x : xin E NM) (c : nat) : Prop :=
  match x with
  | XFrame a _ => supported (a_dtype a) = true /\ exists n, a_shape a = [n; c]
  | XList a | XArray a => supported (a_dtype a) = true /\ (a_shape a = [c] \/ exists n, a_shape a = [n; c])
  | XScalar t _ => supported t = true /\ c = 1
  end.
(** Its numbers and its number of rows. *)
Definition query_data {E NM} (x : xin E NM) : list E :=
  match x with XFrame a _ | XList a | XArray a => a_data a | XScalar _ e => [e] end.
Definition query_rows {E NM} (x : xin E NM) : nat :=
  match x with
  | XFrame a _ | XList a | XArray a => match a_shape a with [n; _] => n | _ => 1 end
  | XScalar _ _ => 1
  end.

(** ** Estimators

    The four classes differ in how they read numbers ([cx], [cy]), check targets, compare features ([F], [G]) and score and
    summarise targets ([L]).  All statements about histories hold for arbitrary choices of these. *)
Record perp_est (E A V Y P NM : Type) := mkPE {
  pe_cx : cast E A; pe_cy : cast E Y; pe_name : nat -> NM; pe_check : option P -> arr Y -> res unit;
  pe_F : feat A V; pe_L : lik Y P R; pe_same : P -> P -> bool; pe_prune : bool; pe_x0 : A; pe_y0 : Y }.
Arguments mkPE {E A V Y P NM}.
Arguments pe_cx {E A V Y P NM}.
Arguments pe_cy {E A V Y P NM}.
Arguments pe_name {E A V Y P NM}.
Arguments pe_check {E A V Y P NM}.
Arguments pe_F {E A V Y P NM}.
Arguments pe_L {E A V Y P NM}.
Arguments pe_same {E A V Y P NM}.
Arguments pe_prune {E A V Y P NM}.
Arguments pe_x0 {E A V Y P NM}.
Arguments pe_y0 {E A V Y P NM}.
Section PerpEst.
Context {E A V Y P NM : Type}.
Variable e : perp_est E A V Y P NM.
Notation obj := (obj (psplit NM V) R P).
Definition pe_new (prior : option P) : obj := new_obj perp_klass prior 0.
Definition pe_validate (prior : option P) (a : fit_args E NM) : res (valid A Y NM) :=
  validate (pe_cx e) (pe_cy e) (pe_name e) (pe_check e prior) (fa_X a) (fa_y a) (fa_names a).
Definition pe_fit (a : fit_args E NM) : @M (psplit NM V) R P :=
  api_fit (pe_cy e) (pe_name e) (pe_check e) (pe_L e) (pe_same e) (pe_prune e) (pe_y0 e) (pe_cx e) (pe_F e) (pe_x0 e) a.
(** [_fit] on a validated training set: the part of [fit] before pruning. *)
Definition pe_grow (v : valid A Y NM) : @M (psplit NM V) R P :=
  ofit_root (pe_F e) (pe_L e) (entry (pe_x0 e) (v_X v)) (target (pe_y0 e) v) (v_names v) (len (v_X v)) (cols (v_X v)).
Definition pe_left (q : arr A) (d : pdesc NM V) (i : nat) : bool := f_lt (pe_F e) (entry (pe_x0 e) q i (sd_dim d)) (sd_val d).
Definition pe_right (q : arr A) (d : pdesc NM V) (i : nat) : bool := f_ge (pe_F e) (entry (pe_x0 e) q i (sd_dim d)) (sd_val d).
Definition pe_query {O} (val : option P -> P -> O) (init : O) (o : obj) (x : xin E NM) : res (list O) :=
  api_query perp_klass (pe_cx e) (pe_name e) pe_left pe_right val init o x.
Definition pe_paths {St} (step : pdesc NM V -> bool -> St) (o : obj) (x : xin E NM) : res (list (list St)) :=
  api_paths perp_klass (pe_cx e) (pe_name e) pe_left pe_right step o x.
Definition pe_importance (o : obj) : res (list (option R)) := api_importance perp_klass perp_upd o.
End PerpEst.

Record hyper_est (E A W C J Q Y P NM : Type) := mkHE {
  he_cx : cast E A; he_cy : cast E Y; he_name : nat -> NM; he_check : option P -> arr Y -> res unit;
  he_G : geo W C (list R) (list R) J Q; he_row : arr A -> nat -> W; he_L : lik Y P R; he_post : R -> P -> list Y -> P;
  he_same : P -> P -> bool; he_prune : bool; he_y0 : Y }.
Arguments mkHE {E A W C J Q Y P NM}.
Arguments he_cx {E A W C J Q Y P NM}.
Arguments he_cy {E A W C J Q Y P NM}.
Arguments he_name {E A W C J Q Y P NM}.
Arguments he_check {E A W C J Q Y P NM}.
Arguments he_G {E A W C J Q Y P NM}.
Arguments he_row {E A W C J Q Y P NM}.
Arguments he_L {E A W C J Q Y P NM}.
Arguments he_post {E A W C J Q Y P NM}.
Arguments he_same {E A W C J Q Y P NM}.
Arguments he_prune {E A W C J Q Y P NM}.
Arguments he_y0 {E A W C J Q Y P NM}.
Section HyperEst.
Context {E A W C J Q Y P NM : Type}.
Variable e : hyper_est E A W C J Q Y P NM.
Notation obj := (obj (hsplit (list R) (list R)) R P).
Definition he_new (prior : option P) : obj := new_obj hyper_klass prior 0.
Definition he_validate (prior : option P) (a : fit_args E NM) : res (valid A Y NM) :=
  validate (he_cx e) (he_cy e) (he_name e) (he_check e prior) (fa_X a) (fa_y a) (fa_names a).
(** Every call of [fit] may evaluate other candidates ([fst a]). *)
Definition he_fit (a : (list bool -> list C) * fit_args E NM) : @M (hsplit (list R) (list R)) R P :=
  api_hfit (he_cy e) (he_name e) (he_check e) (he_L e) (he_same e) (he_prune e) (he_y0 e) (he_cx e) (he_G e) (he_post e) (he_row e) (fst a) (snd a).
Definition he_grow (cands : list bool -> list C) (v : valid A Y NM) : @M (hsplit (list R) (list R)) R P :=
  ohfit (he_G e) (he_L e) (he_post e) (he_row e (v_X v)) (target (he_y0 e) v) (cols (v_X v)) cands (Datatypes.S (len (v_X v))) [] (seq 0 (len (v_X v))).
Definition he_back (q : arr A) : plane (list R) (list R) -> nat -> bool := hgo1 (he_G e) (he_row e q).
Definition he_front (q : arr A) : plane (list R) (list R) -> nat -> bool := hgo2 (he_G e) (he_row e q).
Definition he_query {O} (val : option P -> P -> O) (init : O) (o : obj) (x : xin E NM) : res (list O) :=
  api_query hyper_klass (he_cx e) (he_name e) he_back he_front val init o x.
Definition he_importance (o : obj) : res (list (option R)) := api_importance hyper_klass hyper_upd o.
End HyperEst.

(** ** The classes over the reals *)
Definition to_fl (y : arr R) : arr fl := mkArr (a_shape y) (a_dtype y) (map Some (a_data y)).
Section Classes.
Context {E : Type}.
Variables cx cy : cast E R.
Variable x_name : nat -> string.
Variable srt : (nat -> R) -> nat -> list nat.
(** [PerpendicularClassificationTree], [PerpendicularRegressionTree]; [srt] is np.argsort. *)
Definition clf_est (h : hyper (list R)) : perp_est E R R R (list R) string :=
  mkPE cx cy x_name (fun pa y => clf_check_target (@length R) pa (to_fl y)) (feat_R (h_prec h) srt) (clf_lik (h_pp h) (h_delta h))
    (fun p q => Nat.eqb (clf_predict_leaf p) (clf_predict_leaf q)) (h_prune h) 0%R 0%R.
Definition reg_est (h : hyper ng) : perp_est E R R R ng string :=
  mkPE cx cy x_name (fun _ y => reg_check_target (to_fl y)) (feat_R (h_prec h) srt) (reg_lik (h_pp h) (h_delta h))
    (fun p q => Reqb (reg_predict_leaf p) (reg_predict_leaf q)) (h_prune h) 0%R 0%R.
(** [HyperplaneClassificationTree], [HyperplaneRegressionTree]; [pre] maps candidates to normals. *)
Context {C : Type}.
Variable pre : C -> list R.
Definition row_of (q : arr R) (i : nat) : list R := map (entry 0%R q i) (seq 0 (cols q)).
Definition hclf_est (h : hyper (list R)) : hyper_est E R (list R) C _ _ R (list R) string :=
  mkHE cx cy x_name (fun pa y => clf_check_target (@length R) pa (to_fl y)) (geo_R pre (h_prec h) srt) row_of
    (clf_lik (h_pp h) (h_delta h)) clf_posterior (fun p q => Nat.eqb (clf_predict_leaf p) (clf_predict_leaf q)) (h_prune h) 0%R.
Definition hreg_est (h : hyper ng) : hyper_est E R (list R) C _ _ R ng string :=
  mkHE cx cy x_name (fun _ y => reg_check_target (to_fl y)) (geo_R pre (h_prec h) srt) row_of
    (reg_lik (h_pp h) (h_delta h)) reg_posterior (fun p q => Reqb (reg_predict_leaf p) (reg_predict_leaf q)) (h_prune h) 0%R.
End Classes.

(** A validated training set as a training set of Api.v / Hyper.v, and the query matrix as a function. *)
Definition set_of (v : valid R R string) : tset R R :=
  mkSet (len (v_X v)) (cols (v_X v)) (entry 0%R (v_X v)) (target 0%R v) (v_names v).
Definition hset_of (v : valid R R string) : hset (list R) R :=
  mkHSet (len (v_X v)) (cols (v_X v)) (row_of (v_X v)) (target 0%R v).
Definition query_entries {E NM} (cx : cast E R) (x : xin E NM) (c : nat) (i f : nat) : R :=
  nth (i * c + f) (map (as_is cx) (query_data x)) 0%R.
Definition query_row {E NM} (cx : cast E R) (x : xin E NM) (c : nat) (i : nat) : list R := map (query_entries cx x c i) (seq 0 c).

(** What an object answers that was fitted on data with [c] features and stands for the tree [t]; [leaf] is [_predict_leaf]. *)
Section Answers.
Context {E C : Type}.
Variable cx : cast E R.
Definition perp_answers {P} (e : perp_est E R R R P string) (leaf : P -> R) (t : tree (pdesc string R) R P) (o : obj (psplit string R) R P) (c : nat) : Prop :=
  o = perp_obj t /\
  (forall x, query_matrix x c ->
     pe_query e (fun _ p => leaf p) 0%R o x =
       Ok (predict_rows (goes_left (query_entries cx x c)) (goes_right (query_entries cx x c)) (fun i => leaf (i_post i)) t (query_rows x) 0%R) /\
     pe_query e (fun pr p => Some (pr, p)) None o x = Ok (raw_leaf_data t (query_entries cx x c) (query_rows x)) /\
     pe_paths e perp_step o x = Ok (perp_paths t (query_entries cx x c) (query_rows x))) /\
  pe_importance o = feature_importance t /\
  api_depth perp_klass o = Ok (get_depth t) /\ api_n_leaves perp_klass o = Ok (get_n_leaves t).

Definition hyper_answers {P J Q} (e : hyper_est E R (list R) C J Q R P string) (leaf : P -> R) (t : tree (plane (list R) (list R)) R P)
    (o : obj (hsplit (list R) (list R)) R P) (c : nat) : Prop :=
  o = hyper_obj t /\
  (forall x, query_matrix x c ->
     he_query e (fun _ p => leaf p) 0%R o x =
       Ok (predict_rows (behind (query_row cx x c)) (before (query_row cx x c)) (fun i => leaf (i_post i)) t (query_rows x) 0%R)) /\
  he_importance o = hyper_feature_importance t /\
  api_depth hyper_klass o = Ok (get_depth t) /\ api_n_leaves hyper_klass o = Ok (get_n_leaves t).
End Answers.
