(** * ConstSpec: the root of a tree fitted to a constant target. *)
From Coq Require Import Reals.
From Verif Require Import Prelude Tree Perp Api ApiSpec.
Local Open Scope nat_scope.

(** A root that is split is split along a feature with few admissible cuts: the prior odds of a split of
    the root, shared equally among the features and the cuts of this feature, are above one. *)
Definition few_cuts {P} (pp prec : R) (d : tset R R) (t : tree (pdesc string R) R P) : Prop :=
  match t with
  | Leaf _ => True
  | Split _ s _ _ _ _ =>
      exists m, n_admissible prec d (sd_dim s) (all_rows d) m /\ 1 <= m /\ (INR m * INR (ts_dim d) * (1 - pp) < pp)%R
  end.
