(** * Properties of the perpendicular fit on float64 and integer arrays: C25, C26, C27, C52. *)
From Coq Require Import QArith Reals Permutation Sorted.
From Flocq Require Import Core BinarySingleNaN.
From Verif Require Import Prelude Tree Perp RealOps Clf Reg Api Spec ClfSpec RegSpec ApiSpec Routing FloatFeat FloatProofs IntFeat IntProofs IntFit NumApi.
From Verif Require Import OptProofs FitProofs OptFit Witness NumLemmas NumWitness.
Local Open Scope nat_scope.

(** ** C25: false of the code for NaN queries *)
Theorem C25_nan_query_refuted srt : sorts fleb srt -> exists t,
  finite_entries 53 1024 (ts_X (two_rows f1 f2)) 2 1 /\
  fclf_fit srt f0 two_h (two_rows f1 f2) = Ok t /\ length (leaves t) = 2 /\
  fclf_predict_proba t (fun _ _ => fnan) 1 = [None] /\ fclf_predict t (fun _ _ => fnan) 1 = [0%R].
Proof. exact (nan_query srt). Qed.
Print Assumptions C25_nan_query_refuted.
(** On every tree with a split: a NaN at the root's split dimension. *)
Theorem C25_nan_falls_through {S} (i : ninfo (list R)) d (a b : S) c1 c2 (Xq : nat -> nat -> float64) m q :
  q < m -> is_nan (Xq q (sd_dim d)) = true ->
  nth_error (fclf_predict (Split i d a b c1 c2) Xq m) q = Some 0%R /\
  nth_error (fclf_predict_proba (Split i d a b c1 c2) Xq m) q = Some None.
Proof. exact (nan_falls_through i d a b c1 c2 Xq m q). Qed.
Print Assumptions C25_nan_falls_through.
(** Without NaN entries in the query (infinities allowed) every result is that of the unique reached leaf. *)
Theorem C25_non_nan srt p h (d : tset float64 R) t : permutes srt -> tset_ok d ->
  finite_entries 53 1024 (ts_X d) (ts_n d) (ts_dim d) -> fclf_fit srt p h d = Ok t ->
  forall (Xq : nat -> nat -> float64) m, (forall q c, q < m -> c < ts_dim d -> is_nan (Xq q c) = false) ->
  forall q, q < m -> exists i, In i (leaves t) /\
    reaches (fun e => f_left Xq e q = true) (fun e => f_right Xq e q = true) t i /\
    nth_error (fclf_predict t Xq m) q = Some (INR (clf_predict_leaf (i_post i))) /\
    nth_error (fclf_predict_proba t Xq m) q = Some (Some (clf_posterior_mean (i_post i))).
Proof. exact (float_predict_leaf srt p h d t). Qed.
Print Assumptions C25_non_nan.
Example C25_case : tset_ok (two_rows f1 f2) /\ finite_entries 53 1024 (ts_X (two_rows f1 f2)) 2 1 /\ is_nan f2 = false.
Proof. exact two_usable. Qed.

(** ** C26: false of the code when sums wrap around *)
Theorem C26_uint8_refuted srt : sorts Z.leb srt -> exists t,
  entries_in uint8 (ts_X (two_rows 100 200)%Z) 2 1 /\
  iclf_fit uint8 srt two_h (two_rows 100 200)%Z = Ok t /\
  map (fun l => (i_n_data l, clf_predict_leaf (i_post l))) (leaves t) = [(1, 0); (1, 1)] /\
  iclf_predict t (ts_X (two_rows 100 200)%Z) 2 = [1; 1]%R /\
  ~ nodes_ok (i_left (ts_X (two_rows 100 200)%Z)) (i_right (ts_X (two_rows 100 200)%Z))
      (fitted_on (clf_lik (h_pp two_h) (h_delta two_h)) (ts_y (two_rows 100 200)%Z)) (seq 0 2) t.
Proof. exact (uint8_misrouted srt). Qed.
Print Assumptions C26_uint8_refuted.
(** Every split between two values whose sum leaves the range misroutes one of the two rows. *)
Theorem C26_overflow_misroutes t prec srt a b : (0 < it_bits t)%Z -> in_range t a -> in_range t b -> (a < b)%Z ->
  ~ in_range t (a + b)%Z ->
  let F := feat_i t prec srt in
  let s := f_mid F a b in
  (f_lt F a s = false /\ f_ge F a s = true) \/ (f_lt F b s = true /\ f_ge F b s = false).
Proof. exact (overflow_misroutes t prec srt a b). Qed.
Print Assumptions C26_overflow_misroutes.
Example C26_overflow_case : in_range uint8 100 /\ in_range uint8 200 /\ ~ in_range uint8 (100 + 200).
Proof. exact uint8_range. Qed.
(** If no sum of two separated values leaves the range, the routing is right. *)
Theorem C26_routing {Y P S} ty prec srt (L : lik Y P S) same do_prune lvl pa (d : tset Z Y) t :
  (0 < it_bits ty)%Z -> (0 <= prec)%R -> sorts Z.leb srt -> tset_ok d ->
  entries_in ty (ts_X d) (ts_n d) (ts_dim d) -> sums_in ty prec (ts_X d) (ts_n d) (ts_dim d) ->
  perp_fit (feat_i ty prec srt) L same do_prune lvl pa d = Ok t ->
  nodes_ok (i_left (ts_X d)) (i_right (ts_X d)) (fitted_on L (ts_y d)) (seq 0 (ts_n d)) t.
Proof. exact (int_routed ty prec srt L same do_prune lvl pa d t). Qed.
Print Assumptions C26_routing.
Example C26_case : tset_ok (two_rows 10 20)%Z /\ entries_in uint8 (ts_X (two_rows 10 20)%Z) 2 1 /\ sums_in uint8 0 (ts_X (two_rows 10 20)%Z) 2 1.
Proof. exact uint8_usable. Qed.

(** ** C27: false of the code for neighbouring and for very large values *)
Theorem C27_neighbours_refuted srt : sorts fleb srt -> exists t,
  finite_entries 53 1024 (ts_X (two_rows f1 f1s)) 2 1 /\
  fclf_fit srt f0 two_h (two_rows f1 f1s) = Ok t /\
  map (fun l => (i_n_data l, clf_predict_leaf (i_post l))) (leaves t) = [(1, 0); (1, 1)] /\
  fclf_predict t (ts_X (two_rows f1 f1s)) 2 = [1; 1]%R /\
  ~ nodes_ok (f_left (ts_X (two_rows f1 f1s))) (f_right (ts_X (two_rows f1 f1s)))
      (fitted_on (clf_lik (h_pp two_h) (h_delta two_h)) (ts_y (two_rows f1 f1s))) (seq 0 2) t.
Proof. exact (neighbours_misrouted srt). Qed.
Print Assumptions C27_neighbours_refuted.
Theorem C27_overflow_refuted srt : sorts fleb srt -> exists t,
  finite_entries 53 1024 (ts_X (two_rows fbig fbig2)) 2 1 /\
  fclf_fit srt f0 two_h (two_rows fbig fbig2) = Ok t /\
  map (fun l => (i_n_data l, clf_predict_leaf (i_post l))) (leaves t) = [(1, 0); (1, 1)] /\
  fclf_predict t (ts_X (two_rows fbig fbig2)) 2 = [0; 0]%R /\
  ~ nodes_ok (f_left (ts_X (two_rows fbig fbig2))) (f_right (ts_X (two_rows fbig fbig2)))
      (fitted_on (clf_lik (h_pp two_h) (h_delta two_h)) (ts_y (two_rows fbig fbig2))) (seq 0 2) t.
Proof. exact (overflow_misrouted srt). Qed.
Print Assumptions C27_overflow_refuted.
(** The computed midpoint of two finite numbers lies between them unless their sum overflows. *)
Theorem C27_mid_between (a b : float64) : is_finite a = true -> is_finite b = true ->
  is_finite (Bplus mode_NE a b) = true -> (B2R a <= B2R b)%R ->
  is_finite (mid_f a b) = true /\ (B2R a <= B2R (mid_f a b) <= B2R b)%R.
Proof. exact (mid64 a b). Qed.
Print Assumptions C27_mid_between.
(** The routing is right if no sum of two separated values overflows and no two separated values are neighbours. *)
Theorem C27_routing {Y P S} p srt (L : lik Y P S) same do_prune lvl pa (d : tset float64 Y) t :
  Bltb p f0 = false -> sorts fleb srt -> tset_ok d ->
  finite_entries 53 1024 (ts_X d) (ts_n d) (ts_dim d) -> separable 53 1024 prec64_pos prec64_lt p (ts_X d) (ts_n d) (ts_dim d) ->
  perp_fit (feat_f p srt) L same do_prune lvl pa d = Ok t ->
  nodes_ok (f_left (ts_X d)) (f_right (ts_X d)) (fitted_on L (ts_y d)) (seq 0 (ts_n d)) t.
Proof. exact (float_routed p srt L same do_prune lvl pa d t). Qed.
Print Assumptions C27_routing.
Example C27_case : tset_ok (two_rows f1 f2) /\ Bltb f0 f0 = false /\ finite_entries 53 1024 (ts_X (two_rows f1 f2)) 2 1 /\
  separable 53 1024 prec64_pos prec64_lt f0 (ts_X (two_rows f1 f2)) 2 1.
Proof. exact two_separable. Qed.
(** A split precision of at least 2^(k-53) suffices for values below 2^k. *)
Theorem C27_precision (p : float64) k X n n_dim : finite_entries 53 1024 X n n_dim ->
  (-1021 <= k)%Z -> (k + 1 < 1024)%Z -> is_finite p = true -> (bpow radix2 (k - 53) <= B2R p)%R ->
  (forall i d, i < n -> d < n_dim -> (Rabs (B2R (X i d)) < bpow radix2 k)%R) ->
  separable 53 1024 prec64_pos prec64_lt p X n n_dim.
Proof. exact (precision64 p k X n n_dim). Qed.
Print Assumptions C27_precision.
Example C27_precision_case : is_finite f1 = true /\ (bpow radix2 (2 - 53) <= B2R f1)%R /\
  gap_f f1 (Bopp f1) f1 = true /\
  (forall i d, i < 2 -> d < 1 -> (Rabs (B2R (ts_X (two_rows (Bopp f1) f1) i d)) < bpow radix2 2)%R).
Proof. exact two_precision. Qed.

(** ** C52: false of the code when squares wrap around *)
Theorem C52_int8_refuted srt : permutes srt -> exists i j,
  ireg_fit int8 srt same_h same_rows = Ok (Leaf i) /\ reg_fit srt same_h (map_target IZR same_rows) = Ok (Leaf j) /\
  ng_beta (i_post i) = (-207)%R /\ ng_beta (i_post j) = 49%R.
Proof. exact (int8_targets srt). Qed.
Print Assumptions C52_int8_refuted.
(** If no square leaves the range, integer targets give the tree of the same targets as floats. *)
Theorem C52_no_wrap ty srt h B (d : tset R Z) : (0 < it_bits ty)%Z -> permutes srt -> tset_ok d -> targets_small ty B d ->
  ireg_fit ty srt h d = reg_fit srt h (map_target IZR d).
Proof. exact (ireg_fit_eq ty srt h B d). Qed.
Print Assumptions C52_no_wrap.
Example C52_case : tset_ok same_rows /\ targets_small int16 12 same_rows.
Proof. exact int16_usable. Qed.
