(** * Properties of moved training sets (C78) and of opposite directions (C79). *)
From Coq Require Import QArith Reals.
From Verif Require Import Prelude Tree Perp RealOps Clf Reg Api Hyper Spec OptSpec OptProofs ClfSpec RegSpec ApiSpec HyperSpec Sphere Optim OptimFit NonfiniteSpec Witness HyperExec HyperWitness
  RegWitness ClfProofs RegProofs HyperLemmas SimilarSpec SimilarProofs SimilarOptim SimilarWitness OppositeProofs OppositeWitness.
Local Open Scope R_scope.

(** ** C78 *)
(** Turning, reflecting, scaling and shifting the rows, with the candidates turned alike and the split precision scaled, moves the hyperplanes and changes nothing else. *)
Theorem C78_hclf {C} (pre : C -> list R) srt A s v cands h d :
  by_comparison srt -> isometry (hs_dim d) A -> 0 < s -> length v = hs_dim d -> hset_ok d -> proper (hs_dim d) pre cands ->
  hclf_fit (fun c => A (pre c)) srt cands (with_prec (s * h_prec h) h) (moved_set A s v d) =
    map_res (moved_tree A s v) (hclf_fit pre srt cands h d).
Proof. exact (hclf_moved pre srt A s v cands h d). Qed.
Print Assumptions C78_hclf.
Theorem C78_hreg {C} (pre : C -> list R) srt A s v cands h d :
  by_comparison srt -> isometry (hs_dim d) A -> 0 < s -> length v = hs_dim d -> hset_ok d -> proper (hs_dim d) pre cands ->
  hreg_fit (fun c => A (pre c)) srt cands (with_prec (s * h_prec h) h) (moved_set A s v d) =
    map_res (moved_tree A s v) (hreg_fit pre srt cands h d).
Proof. exact (hreg_moved pre srt A s v cands h d). Qed.
Print Assumptions C78_hreg.
(** The moved tree predicts for moved queries what the tree predicts for the queries. *)
Theorem C78_hclf_predict {C} (pre : C -> list R) srt A s v cands h d t Xq m :
  by_comparison srt -> isometry (hs_dim d) A -> 0 < s -> length v = hs_dim d -> hset_ok d -> proper (hs_dim d) pre cands ->
  hclf_fit pre srt cands h d = Ok t -> (forall i, (i < m)%nat -> length (Xq i) = hs_dim d) ->
  hclf_predict (moved_tree A s v t) (fun i => moved A s v (Xq i)) m = hclf_predict t Xq m /\
  hclf_predict_proba (moved_tree A s v t) (fun i => moved A s v (Xq i)) m = hclf_predict_proba t Xq m.
Proof. exact (hclf_moved_predict pre srt A s v cands h d t Xq m). Qed.
Print Assumptions C78_hclf_predict.
Theorem C78_hreg_predict {C} (pre : C -> list R) srt A s v cands h d t Xq m :
  by_comparison srt -> isometry (hs_dim d) A -> 0 < s -> length v = hs_dim d -> hset_ok d -> proper (hs_dim d) pre cands ->
  hreg_fit pre srt cands h d = Ok t -> (forall i, (i < m)%nat -> length (Xq i) = hs_dim d) ->
  hreg_predict (moved_tree A s v t) (fun i => moved A s v (Xq i)) m = hreg_predict t Xq m.
Proof. exact (hreg_moved_predict pre srt A s v cands h d t Xq m). Qed.
Print Assumptions C78_hreg_predict.
(** Scaling and shifting with the built-in optimizers, which choose the candidates themselves. *)
Theorem C78_hclf_opt srt o fuel s v h d : by_comparison srt -> 0 < s -> length v = hs_dim d -> hset_ok d ->
  hclf_fit_opt srt o fuel (with_prec (s * h_prec h) h) (moved_set (fun x => x) s v d) =
    map_res (moved_tree (fun x => x) s v) (hclf_fit_opt srt o fuel h d).
Proof. exact (hclf_opt_moved srt o fuel s v h d). Qed.
Print Assumptions C78_hclf_opt.
Theorem C78_hreg_opt srt o fuel s v h d : by_comparison srt -> 0 < s -> length v = hs_dim d -> hset_ok d ->
  hreg_fit_opt srt o fuel (with_prec (s * h_prec h) h) (moved_set (fun x => x) s v d) =
    map_res (moved_tree (fun x => x) s v) (hreg_fit_opt srt o fuel h d).
Proof. exact (hreg_opt_moved srt o fuel s v h d). Qed.
Print Assumptions C78_hreg_opt.
Theorem C78_hclf_opt_predict srt o fuel s v h d t Xq m : by_comparison srt -> 0 < s -> length v = hs_dim d -> hset_ok d ->
  hclf_fit_opt srt o fuel h d = Ok t -> (forall i, (i < m)%nat -> length (Xq i) = hs_dim d) ->
  let move := moved (fun x => x) s v in let t' := moved_tree (fun x => x) s v t in
  hclf_predict t' (fun i => move (Xq i)) m = hclf_predict t Xq m /\ hclf_predict_proba t' (fun i => move (Xq i)) m = hclf_predict_proba t Xq m.
Proof. exact (hclf_opt_moved_predict srt o fuel s v h d t Xq m). Qed.
Print Assumptions C78_hclf_opt_predict.
Theorem C78_hreg_opt_predict srt o fuel s v h d t Xq m : by_comparison srt -> 0 < s -> length v = hs_dim d -> hset_ok d ->
  hreg_fit_opt srt o fuel h d = Ok t -> (forall i, (i < m)%nat -> length (Xq i) = hs_dim d) ->
  hreg_predict (moved_tree (fun x => x) s v t) (fun i => moved (fun x => x) s v (Xq i)) m = hreg_predict t Xq m.
Proof. exact (hreg_opt_moved_predict srt o fuel s v h d t Xq m). Qed.
Print Assumptions C78_hreg_opt_predict.
Example C78_case delta prn : by_comparison sort_R /\ isometry 2 turn /\ hset_ok (hsetR hx1) /\ hs_dim (hsetR hx1) = 2%nat /\ proper 2 vecR (same_cands hx1_cs) /\
  exists t, hclf_fit vecR sort_R (same_cands hx1_cs) (hx1_h delta prn) (hsetR hx1) = Ok t /\ height t = 2%nat.
Proof. exact (turn_case delta prn). Qed.
(** False of the code if [split_precision] stays as it is: it is an absolute distance. *)
Theorem C78_fixed_precision_refuted : exists (cands : list bool -> list (list Q)) k prior h d d' t t',
  hclf_setting sort_R k prior h d /\ hs_n d' = hs_n d /\ hs_dim d' = hs_dim d /\
  (forall i, hs_X d' i = moved (fun x => x) (1 / 4) [0] (hs_X d i)) /\ (forall i, hs_y d' i = hs_y d i) /\
  hclf_fit vecR sort_R cands h d = Ok t /\ hclf_fit vecR sort_R cands h d' = Ok t' /\ length (splits t) = 1%nat /\ splits t' = [].
Proof. exact fixed_precision. Qed.
Print Assumptions C78_fixed_precision_refuted.

(** ** C79 *)
(** A normal and its opposite have the same value, if the rows of the node have different projections. *)
Theorem C79_opposite prec srt pp delta X y n_dim lvl rows ns c k prior :
  sorts Rleb srt -> 0 <= prec -> n_dim <> 0%nat -> clf_pok k prior -> (forall i, In i rows -> clf_yok k (y i)) -> NoDup rows ->
  spread prec X (unit_vec c) rows -> (exists j, nth j c 0 <> 0) ->
  vector_value (clf_lik pp delta) prec srt X y n_dim lvl prior rows ns (map Ropp c) = vector_value (clf_lik pp delta) prec srt X y n_dim lvl prior rows ns c.
Proof. exact (clf_opposite prec srt pp delta X y n_dim lvl rows ns c k prior). Qed.
Print Assumptions C79_opposite.
Theorem C79_opposite_reg prec srt pp delta X y n_dim lvl rows ns c prior :
  sorts Rleb srt -> 0 <= prec -> n_dim <> 0%nat -> reg_pok prior -> NoDup rows ->
  spread prec X (unit_vec c) rows -> (exists j, nth j c 0 <> 0) ->
  vector_value (reg_lik pp delta) prec srt X y n_dim lvl prior rows ns (map Ropp c) = vector_value (reg_lik pp delta) prec srt X y n_dim lvl prior rows ns c.
Proof. exact (reg_opposite prec srt pp delta X y n_dim lvl rows ns c prior). Qed.
Print Assumptions C79_opposite_reg.
(** Then some point of the search space of half the sphere has the value of any given direction. *)
Theorem C79_half_sphere prec srt pp delta X y n_dim lvl rows ns c k prior :
  sorts Rleb srt -> 0 <= prec -> n_dim <> 0%nat -> clf_pok k prior -> (forall i, In i rows -> clf_yok k (y i)) -> NoDup rows ->
  spread prec X (unit_vec c) rows -> (2 <= length c)%nat -> (exists j, nth j c 0 <> 0) ->
  exists U, Forall (fun u => 0 <= u <= 1) U /\ (1 + length U = length c)%nat /\
    cube_obj (clf_lik pp delta) prec srt X y n_dim lvl prior rows ns U = Ok (vector_value (clf_lik pp delta) prec srt X y n_dim lvl prior rows ns c).
Proof. exact (clf_half_sphere prec srt pp delta X y n_dim lvl rows ns c k prior). Qed.
Print Assumptions C79_half_sphere.
Theorem C79_half_sphere_reg prec srt pp delta X y n_dim lvl rows ns c prior :
  sorts Rleb srt -> 0 <= prec -> n_dim <> 0%nat -> reg_pok prior -> NoDup rows ->
  spread prec X (unit_vec c) rows -> (2 <= length c)%nat -> (exists j, nth j c 0 <> 0) ->
  exists U, Forall (fun u => 0 <= u <= 1) U /\ (1 + length U = length c)%nat /\
    cube_obj (reg_lik pp delta) prec srt X y n_dim lvl prior rows ns U = Ok (vector_value (reg_lik pp delta) prec srt X y n_dim lvl prior rows ns c).
Proof. exact (reg_half_sphere prec srt pp delta X y n_dim lvl rows ns c prior). Qed.
Print Assumptions C79_half_sphere_reg.
Example C79_case : sorts Rleb sort_R /\ hs_dim (hsetR hx1) <> 0%nat /\ clf_pok 3 [1; 1; 1] /\ reg_pok p1 /\
  (forall i, In i (hrows (hsetR hx1)) -> clf_yok 3 (hs_y (hsetR hx1) i)) /\ NoDup (hrows (hsetR hx1)) /\
  spread 0 (hs_X (hsetR hx1)) (unit_vec (vecR [3 # 5; 4 # 5]%Q)) (hrows (hsetR hx1)).
Proof.
  destruct kept_case as (H1 & H2 & H3 & H4 & H5). split; [exact H1|]. split; [exact H2|]. split; [exact H3|]. split; [exact H5|]. split; [exact H4|].
  split; [apply seq_NoDup|]. destruct (hx1_fit 0 true) as (_ & H & _). rewrite <- Q2R_0. apply (H [] [3 # 5; 4 # 5]%Q). left. reflexivity.
Qed.
(** False of the code in general: here every point of the search space gives a tree without split, and a direction of the other half gives a split that classifies all rows. *)
Theorem C79_half_sphere_refuted : exists k prior (h : hyper (list R)) d Xq, hclf_setting sort_R k prior h d /\
  (forall (cands : list bool -> list (list R)) t,
     (forall path c, In c (cands path) -> exists U, (1 + length U)%nat = hs_dim d /\ sphere true U = Ok c) ->
     hclf_fit (fun c => c) sort_R cands h d = Ok t -> splits t = [] /\ hclf_predict t Xq 1 = [0]) /\
  exists (c : list Q) t, length c = hs_dim d /\ (exists j, nth j (vecR c) 0 <> 0) /\
    hclf_fit vecR sort_R (fun _ => [c]) h d = Ok t /\ length (splits t) = 1%nat /\ hclf_predict t Xq 1 = [1].
Proof. exact half_sphere_misses. Qed.
Print Assumptions C79_half_sphere_refuted.
