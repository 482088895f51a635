(** * CoarseSpec: one tree is a coarser version of another. *)
From Verif Require Import Prelude Tree.

(** [t'] arises from [t] by turning some splits into leaves; the split evidences may differ. *)
Inductive coarser {D S P} : tree D S P -> tree D S P -> Prop :=
| coarser_leaf i : coarser (Leaf i) (Leaf i)
| coarser_cut i d a b c1 c2 : coarser (Leaf i) (Split i d a b c1 c2)
| coarser_split i d a b a' b' c1 c2 c1' c2' : coarser c1' c1 -> coarser c2' c2 ->
    coarser (Split i d a' b' c1' c2') (Split i d a b c1 c2).
