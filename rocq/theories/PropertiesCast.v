(** * Properties of the conversion of arguments to numbers: C70. *)
From Coq Require Import Reals Permutation.
From Flocq Require Import BinarySingleNaN.
From Verif Require Import Prelude Tree Perp RealOps Clf Api Spec ClfSpec ApiSpec FitProofs OptProofs OptFit Object ObjectSpec Validate Model ModelSpec ModelTargets
  FloatFeat NumWitness CastSpec CastProofs.
Local Open Scope nat_scope.

(** ** C70 *)
(** [fit] works on exactly the given numbers, or raises before it assigns anything. *)
Theorem C70_fit_reads {E A V Y P NM} (e : perp_est E A V Y P NM) a s :
  (exists v, faithful (pe_cx e) (query_dtype (fa_X a)) (query_data (fa_X a)) (a_data (v_X v)) /\
     faithful (pe_cy e) (a_dtype (fa_y a)) (a_data (fa_y a)) (a_data (v_y v)) /\
     pe_fit e a s = (pe_grow e v ;; (if pe_prune e then prune_obj perp_klass (pe_same e) else done)) s) \/
  (exists ex, pe_fit e a s = ([], Some ex)).
Proof. exact (pe_fit_reads e a s). Qed.
Print Assumptions C70_fit_reads.
Theorem C70_fit_reads_hyper {E A W C J Q Y P NM} (e : hyper_est E A W C J Q Y P NM) cands a s :
  (exists v, faithful (he_cx e) (query_dtype (fa_X a)) (query_data (fa_X a)) (a_data (v_X v)) /\
     faithful (he_cy e) (a_dtype (fa_y a)) (a_data (fa_y a)) (a_data (v_y v)) /\
     he_fit e (cands, a) s = (he_grow e cands v ;; (if he_prune e then prune_obj hyper_klass (he_same e) else done)) s) \/
  (exists ex, he_fit e (cands, a) s = ([], Some ex)).
Proof. exact (he_fit_reads e cands a s). Qed.
Print Assumptions C70_fit_reads_hyper.
(** A number that the conversion changes makes fits and queries raise. *)
Theorem C70_lossy {E A V Y P NM O St} (e : perp_est E A V Y P NM) a s (val : option P -> P -> O) init (step : pdesc NM V -> bool -> St) :
  (lossy (pe_cy e) (a_dtype (fa_y a)) (a_data (fa_y a)) -> pe_fit e a s = ([], Some ValueError)) /\
  (lossy (pe_cx e) (query_dtype (fa_X a)) (query_data (fa_X a)) -> exists ex, pe_fit e a s = ([], Some ex)) /\
  (forall o x m, query_matrix (with_dtype F64 x) m -> lossy (pe_cx e) (query_dtype x) (query_data x) ->
     pe_query e val init o x = Err ValueError /\ pe_paths e step o x = Err ValueError).
Proof. exact (conj (proj1 (pe_lossy e a s)) (conj (proj2 (pe_lossy e a s)) (pe_query_lossy e val init step))). Qed.
Print Assumptions C70_lossy.
Theorem C70_lossy_hyper {E A W C J Q Y P NM O} (e : hyper_est E A W C J Q Y P NM) cands a s (val : option P -> P -> O) init :
  (lossy (he_cy e) (a_dtype (fa_y a)) (a_data (fa_y a)) -> he_fit e (cands, a) s = ([], Some ValueError)) /\
  (lossy (he_cx e) (query_dtype (fa_X a)) (query_data (fa_X a)) -> exists ex, he_fit e (cands, a) s = ([], Some ex)) /\
  (forall o x m, query_matrix (with_dtype F64 x) m -> lossy (he_cx e) (query_dtype x) (query_data x) -> he_query e val init o x = Err ValueError).
Proof. exact (conj (proj1 (he_lossy e cands a s)) (conj (proj2 (he_lossy e cands a s)) (he_query_lossy e val init))). Qed.
Print Assumptions C70_lossy_hyper.
(** A nan is not equal to itself: the same matrix is accepted as float64 and rejected with a dtype that needs conversion. *)
Theorem C70_dtype_refuted srt h : permutes srt -> exists s p,
  s = pe_new (Some p) /\ (exists o, outcome_of (pe_fit (f_est srt h) (nan_args F64)) s = Ok o) /\
  pe_fit (f_est srt h) (nan_args Other) s = ([], Some ValueError).
Proof. exact (nan_by_dtype srt h). Qed.
Print Assumptions C70_dtype_refuted.
Example C70_case : lossy f_cast Other [f1; fnan] /\ faithful f_cast Other [f1; f2] [f1; f2] /\ ~ lossy f_cast Other [f1; f2].
Proof. exact cast_case. Qed.
