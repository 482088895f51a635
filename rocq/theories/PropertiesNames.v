(** * Properties of feature names and argument shapes: C71. *)
From Coq Require Import Reals.
From Verif Require Import Prelude Tree Perp RealOps Clf Api Spec Object ObjectSpec Validate Model ModelSpec ModelTargets ModelWitness CastSpec NamesSpec NamesProofs Witness.
Local Open Scope nat_scope.

(** ** C71 *)
(** After a successful fit every split carries an existing column and the documented name of that column. *)
Theorem C71_names {E A V Y P NM} (e : perp_est E A V Y P NM) a s o : outcome_of (pe_fit e a) s = Ok o ->
  exists m, query_matrix (with_dtype F64 (fa_X a)) m /\
    forall n, within n o -> named (documented_names (pe_name e) a m) m (at_split (oattrs n)).
Proof. exact (pe_names e a s o). Qed.
Print Assumptions C71_names.
(** So does every step of a prediction path. *)
Theorem C71_paths {E A V Y P NM} (e : perp_est E A V Y P NM) a s o x r : outcome_of (pe_fit e a) s = Ok o ->
  pe_paths e (fun d (_ : bool) => (sd_dim d, sd_name d)) o x = Ok r ->
  exists m, query_matrix (with_dtype F64 (fa_X a)) m /\ query_matrix (with_dtype F64 x) m /\ length r = query_rows x /\
    forall path dim nm, In path r -> In (dim, nm) path -> dim < m /\ nth_error (documented_names (pe_name e) a m) dim = Some nm.
Proof. exact (pe_path_names e a s o x r). Qed.
Print Assumptions C71_paths.
(** [fit] works on a matrix with one row per target, or raises before it assigns anything. *)
Theorem C71_shape {E A V Y P NM} (e : perp_est E A V Y P NM) a s :
  (exists m, query_matrix (with_dtype F64 (fa_X a)) m /\ query_rows (fa_X a) = len (squeeze (fa_y a))) \/ exists ex, pe_fit e a s = ([], Some ex).
Proof. exact (pe_fit_shape e a s). Qed.
Print Assumptions C71_shape.
Theorem C71_shape_hyper {E A W C J Q Y P NM} (e : hyper_est E A W C J Q Y P NM) cands a s :
  (exists m, query_matrix (with_dtype F64 (fa_X a)) m /\ query_rows (fa_X a) = len (squeeze (fa_y a))) \/ exists ex, he_fit e (cands, a) s = ([], Some ex).
Proof. exact (he_fit_shape e cands a s). Qed.
Print Assumptions C71_shape_hyper.
(** With numeric arrays and an acceptable target the exception for a wrong number of rows is ValueError. *)
Theorem C71_rows {E A V Y P NM} (lab : Y -> fl) (n_classes : P -> nat) (e : perp_est E A V Y P NM) a s m :
  query_matrix (fa_X a) m -> good_target lab n_classes (pe_cy e) (pe_check e) (at_prior (oattrs s)) (fa_y a) ->
  query_rows (fa_X a) <> len (squeeze (fa_y a)) -> pe_fit e a s = ([], Some ValueError).
Proof. exact (pe_rows lab n_classes e a s m). Qed.
Print Assumptions C71_rows.
Theorem C71_rows_hyper {E A W C J Q Y P NM} (lab : Y -> fl) (n_classes : P -> nat) (e : hyper_est E A W C J Q Y P NM) cands a s m :
  query_matrix (fa_X a) m -> good_target lab n_classes (he_cy e) (he_check e) (at_prior (oattrs s)) (fa_y a) ->
  query_rows (fa_X a) <> len (squeeze (fa_y a)) -> he_fit e (cands, a) s = ([], Some ValueError).
Proof. exact (he_rows lab n_classes e cands a s m). Qed.
Print Assumptions C71_rows_hyper.
(** Queries that are no matrix raise, in any state of the object. *)
Theorem C71_query_shape {E A V Y P NM O St} (e : perp_est E A V Y P NM) (val : option P -> P -> O) init (step : pdesc NM V -> bool -> St) o x :
  (forall m, ~ query_matrix (with_dtype F64 x) m) ->
  (exists ex, pe_query e val init o x = Err ex /\ pe_paths e step o x = Err ex) /\
  (2 < axes x -> supported (query_dtype x) = true -> pe_query e val init o x = Err ValueError /\ pe_paths e step o x = Err ValueError).
Proof. exact (pe_query_shape e val init step o x). Qed.
Print Assumptions C71_query_shape.
Theorem C71_query_shape_hyper {E A W C J Q Y P NM O} (e : hyper_est E A W C J Q Y P NM) (val : option P -> P -> O) init o x :
  (forall m, ~ query_matrix (with_dtype F64 x) m) ->
  (exists ex, he_query e val init o x = Err ex) /\
  (2 < axes x -> supported (query_dtype x) = true -> he_query e val init o x = Err ValueError).
Proof. exact (he_query_shape e val init o x). Qed.
Print Assumptions C71_query_shape_hyper.
(** A data frame is queried like the array of its values: its column names do not matter. *)
Theorem C71_frame {E A V Y P NM O St} (e : perp_est E A V Y P NM) (val : option P -> P -> O) init (step : pdesc NM V -> bool -> St) o a cs n m :
  a_shape a = [n; m] ->
  pe_query e val init o (XFrame a cs) = pe_query e val init o (XArray a) /\ pe_paths e step o (XFrame a cs) = pe_paths e step o (XArray a).
Proof. exact (pe_query_frame e val init step o a cs n m). Qed.
Print Assumptions C71_frame.
Theorem C71_frame_hyper {E A W C J Q Y P NM O} (e : hyper_est E A W C J Q Y P NM) (val : option P -> P -> O) init o a cs n m :
  a_shape a = [n; m] -> he_query e val init o (XFrame a cs) = he_query e val init o (XArray a).
Proof. exact (he_query_frame e val init o a cs n m). Qed.
Print Assumptions C71_frame_hyper.
(** A single row is queried like a matrix of one row, a scalar like a matrix of one entry, a list like the array made of it. *)
Theorem C71_row {E A V Y P NM O St} (e : perp_est E A V Y P NM) (val : option P -> P -> O) init (step : pdesc NM V -> bool -> St) o t m data v :
  (pe_query e val init o (XArray (mkArr [m] t data)) = pe_query e val init o (XArray (mkArr [1; m] t data)) /\
   pe_paths e step o (XArray (mkArr [m] t data)) = pe_paths e step o (XArray (mkArr [1; m] t data))) /\
  (pe_query e val init o (XScalar t v) = pe_query e val init o (XArray (mkArr [1; 1] t [v])) /\
   pe_paths e step o (XScalar t v) = pe_paths e step o (XArray (mkArr [1; 1] t [v]))) /\
  (forall z, pe_query e val init o (XList z) = pe_query e val init o (XArray z) /\ pe_paths e step o (XList z) = pe_paths e step o (XArray z)).
Proof. exact (pe_query_row e val init step o t m data v). Qed.
Print Assumptions C71_row.
Theorem C71_row_hyper {E A W C J Q Y P NM O} (e : hyper_est E A W C J Q Y P NM) (val : option P -> P -> O) init o t m data v :
  he_query e val init o (XArray (mkArr [m] t data)) = he_query e val init o (XArray (mkArr [1; m] t data)) /\
  he_query e val init o (XScalar t v) = he_query e val init o (XArray (mkArr [1; 1] t [v])) /\
  (forall z, he_query e val init o (XList z) = he_query e val init o (XArray z)).
Proof. exact (he_query_row e val init o t m data v). Qed.
Print Assumptions C71_row_hyper.
(** Regression trees reject targets with more than one axis of length other than 1 (and scalars). *)
Theorem C71_target {E A V Y P NM} (lab : Y -> fl) (e : perp_est E A V Y P NM) a s : reg_checks lab (pe_check e) ->
  supported (a_dtype (fa_y a)) = true -> ndim (squeeze (fa_y a)) <> 1 -> pe_fit e a s = ([], Some ValueError).
Proof. exact (pe_target lab e a s). Qed.
Print Assumptions C71_target.
Theorem C71_target_hyper {E A W C J Q Y P NM} (lab : Y -> fl) (e : hyper_est E A W C J Q Y P NM) cands a s : reg_checks lab (he_check e) ->
  supported (a_dtype (fa_y a)) = true -> ndim (squeeze (fa_y a)) <> 1 -> he_fit e (cands, a) s = ([], Some ValueError).
Proof. exact (he_target lab e cands a s). Qed.
Print Assumptions C71_target_hyper.
Example C71_target_case h : reg_checks (Some : R -> fl) (pe_check (reg_est (@id_cast) id_cast x_names sort_R h)) /\
  supported F64 = true /\ ndim (squeeze (mkArr [2; 1; 2] F64 [1; 2; 3; 4]%R)) <> 1.
Proof. split; [intros pa y; reflexivity|]. split; [reflexivity|discriminate]. Qed.
Section Strings.
Import String.
Local Open Scope string_scope.
(** Columns of a query frame are not matched by name: the same table with its columns in another order is classified differently. *)
Theorem C71_column_order_refuted : exists h a o r1 r2, outcome_of (pe_fit (est h) a) (pe_new (h_prior h)) = Ok o /\
  documented_names x_names a 2 = ["a"; "b"] /\ same_table frame_ab frame_ba 1 2 /\
  pe_query (est h) (fun _ p => INR (clf_predict_leaf p)) 0%R o frame_ab = Ok r1 /\
  pe_query (est h) (fun _ p => INR (clf_predict_leaf p)) 0%R o frame_ba = Ok r2 /\ r1 <> r2.
Proof. exact frame_order. Qed.
Print Assumptions C71_column_order_refuted.
(** The number of names is not checked: for two columns one name and three names are accepted, and one name is an IndexError on other data. *)
Theorem C71_names_count_refuted : exists h, (exists o, outcome_of (pe_fit (est h) w_short) (pe_new (h_prior h)) = Ok o) /\
  (exists o, outcome_of (pe_fit (est h) w_long) (pe_new (h_prior h)) = Ok o) /\
  exists o, outcome_of (pe_fit (est h) (w_args2 ["a"])) (pe_new (h_prior h)) = Err IndexError /\ outcome_of (pe_fit (est h) (w_args2 ["a"; "b"])) (pe_new (h_prior h)) = Ok o.
Proof. exact wrong_names. Qed.
Print Assumptions C71_names_count_refuted.
End Strings.
Example C71_case : (forall m, ~ query_matrix (with_dtype F64 deep) m) /\ 2 < axes deep /\ supported (query_dtype deep) = true /\
  query_matrix (fa_X few_labels) 1 /\ query_rows (fa_X few_labels) <> len (squeeze (fa_y few_labels)) /\
  good_target (Some : R -> fl) (@length R) id_cast (pe_check (est (w_h true))) (Some [1; 1]%R) (fa_y few_labels).
Proof. exact shape_case. Qed.
