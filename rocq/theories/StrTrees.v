(** * StrTrees: [str(tree)] of the four tree classes (base_perpendicular.py:225-251, base_hyperplane.py:162-190).

    Oracles: [num] is ['{}'.format] of a float, [vec] of an array of floats. *)
From Verif Require Import Prelude Tree Perp RealOps Clf Reg Api Hyper Str.

Section Print.
Variable num : R -> text.
Variable vec : list R -> text.

(** A class label is an int (classification.py:110-112); feature names are str. *)
Definition label_text (p : list R) : text := dec (clf_predict_leaf p).
Definition value_text (p : ng) : text := num (reg_predict_leaf p).
Definition proba_text (p : list R) : text := vec (clf_posterior_mean p).
Definition name_text (d : pdesc string R) : text := lit (sd_name d).
Definition val_text (d : pdesc string R) : text := num (sd_val d).
Definition origin_text (d : plane (list R) (list R)) : text := vec (p_origin d).
Definition normal_text (d : plane (list R) (list R)) : text := vec (p_normal d).

Definition clf_text (t : ctree) : text := str_model (perp_prefix val_text) (perp_split name_text val_text) label_text (Some proba_text) (Some t).
Definition reg_text (t : rtree) : text := str_model (perp_prefix val_text) (perp_split name_text val_text) value_text None (Some t).
Definition hclf_text (t : hctree) : text := str_model hyper_prefix (hyper_split origin_text normal_text) label_text (Some proba_text) (Some t).
Definition hreg_text (t : hrtree) : text := str_model hyper_prefix (hyper_split origin_text normal_text) value_text None (Some t).
End Print.
