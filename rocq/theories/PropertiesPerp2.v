(** * Further properties of perpendicular trees: feature importance, structure prior, prediction paths. *)
From Coq Require Import QArith Permutation Sorted.
From Verif Require Import Prelude Tree Perp RealOps Clf Reg Api Spec ClfSpec RegSpec ApiSpec Importance ImportanceSpec.
From Verif Require Import Exec Witness RegWitness ImportanceProofs StructPrior PathProofs PathWitness.
Local Open Scope nat_scope.

(** ** C12 *)
Theorem C12_clf_importance srt k prior h d t : clf_setting srt k prior h d -> clf_fit srt h d = Ok t -> splits t <> [] ->
  exists v, feature_importance t = Ok (map Some v) /\ is_importance (ts_dim d) t v.
Proof. exact (clf_importance srt k prior h d t). Qed.
Print Assumptions C12_clf_importance.
Theorem C12_reg_importance srt prior h d t : reg_setting srt prior h d -> reg_fit srt h d = Ok t -> splits t <> [] ->
  exists v, feature_importance t = Ok (map Some v) /\ is_importance (ts_dim d) t v.
Proof. exact (reg_importance srt prior h d t). Qed.
Print Assumptions C12_reg_importance.
Example C12_case prn : clf_setting sort_R 3 (map IZR [1;1;1]%Z) (ex1_h prn) (real_set ex1) /\
  exists t, clf_fit sort_R (ex1_h prn) (real_set ex1) = Ok t /\ length (splits t) = 2.
Proof. exact (ex1_importance prn). Qed.

(** ** C13: false of the code (0/0) *)
Theorem C13_importance_nan_refuted : exists srt k prior h d t,
  clf_setting srt k prior h d /\ clf_fit srt h d = Ok t /\ feature_importance t = Ok [None].
Proof. exact flat_importance. Qed.
Print Assumptions C13_importance_nan_refuted.

(** ** C23: false of the code *)
Theorem C23_paths_refuted : exists srt k prior h d t nm,
  clf_setting srt k prior h d /\ clf_fit srt h d = Ok t /\ ts_n d = 10 /\ ts_X d 9 0 = 9%R /\
  nth_error (perp_paths t (ts_X d) 10) 9 = Some [(0, nm, (7 / 2)%R, true); (0, nm, (11 / 2)%R, true); (0, nm, (15 / 2)%R, false)] /\
  row_passes t (ts_X d) 9 [(mkDesc 0 nm (7 / 2)%R, true); (mkDesc 0 nm (11 / 2)%R, true); (mkDesc 0 nm (15 / 2)%R, true)].
Proof. exact paths_wrong. Qed.
Print Assumptions C23_paths_refuted.

(** ** C24 *)
Theorem C24_paths {S P} (t : tree (pdesc string R) S P) Xq m q : m = 1 \/ height t <= 2 -> q < m ->
  exists p, nth_error (perp_paths t Xq m) q = Some (path_steps p) /\ row_passes t Xq q p /\
    (forall p', row_passes t Xq q p' -> p' = p).
Proof. exact (paths_shallow t Xq m q). Qed.
Print Assumptions C24_paths.
(** On any tree and any batch the first two steps are right. *)
Theorem C24_first_two {S P} (t : tree (pdesc string R) S P) Xq m q : q < m ->
  exists out p, nth_error (perp_paths t Xq m) q = Some out /\ row_passes t Xq q p /\
    (forall p', row_passes t Xq q p' -> p' = p) /\
    firstn 2 out = firstn 2 (path_steps p).
Proof. exact (paths_two t Xq m q). Qed.
Print Assumptions C24_first_two.
Example C24_case prn : clf_setting sort_R 5 (map IZR [1;1;1;1;1]%Z) (hyp (9 # 10) [1;1;1;1;1]%Z 0 prn 0) (real_set ex_line) /\
  exists t, clf_fit sort_R (hyp (9 # 10) [1;1;1;1;1]%Z 0 prn 0) (real_set ex_line) = Ok t /\ height t = 3 /\ length (leaves t) = 5.
Proof. exact (line_fit prn). Qed.

(** ** C43.  [idxs] is the sort index matrix of a node *)
Theorem C43_clf_weights pp prec (X : nat -> nat -> R) y idxs k p lvl :
  let row f := nth f idxs [] in
  let ks f := split_positions (fun a b => Rgtb (Rabs (b - a)) prec) (gather (fun i => X i f) (row f)) in
  (0 < pp < 1)%R -> 0 < length idxs -> clf_pok k p -> (forall f i, In i (row f) -> clf_yok k (y i)) -> row 0 <> [] ->
  sub_probability (fun l => ln (dm_prob p l)) (length idxs) ks (fun f => gather y (row f)) (clf_no_split pp lvl p (gather y (row 0)))
    (fun f => clf_split pp lvl p (length idxs) (gather y (row f)) (ks f)).
Proof. exact (fun Hpp Hn => clf_sub_probability pp 0 prec X y idxs Hpp (Rle_refl 0) Hn k p lvl). Qed.
Print Assumptions C43_clf_weights.
Theorem C43_reg_weights pp prec (X : nat -> nat -> R) y idxs p lvl :
  let row f := nth f idxs [] in
  let ks f := split_positions (fun a b => Rgtb (Rabs (b - a)) prec) (gather (fun i => X i f) (row f)) in
  (0 < pp < 1)%R -> 0 < length idxs -> reg_pok p -> row 0 <> [] ->
  sub_probability (ng_logev p) (length idxs) ks (fun f => gather y (row f)) (reg_no_split pp lvl p (gather y (row 0)))
    (fun f => reg_split pp lvl p (length idxs) (gather y (row f)) (ks f)).
Proof. exact (fun Hpp Hn => reg_sub_probability pp 0 prec X y idxs Hpp (Rle_refl 0) Hn p lvl). Qed.
Print Assumptions C43_reg_weights.
Example C43_case : reg_pok p1 /\ (0 < 1 / 2 < 1)%R /\
  split_positions (fun a b => Rgtb (Rabs (b - a)) 0) (gather (fun i => half_X i 0) [0; 1; 2]) = [1; 2] /\
  split_positions (fun a b => Rgtb (Rabs (b - a)) 0) (gather (fun i => half_X i 1) [0; 1; 2]) = [].
Proof. exact half_usable. Qed.
