(** * ColsSpec: columns in another order. *)
From Coq Require String.
From Verif Require Import Prelude Tree Perp RealOps Api ApiSpec.
Local Open Scope nat_scope.

(** [sigma] permutes the columns and [tau] is its inverse. *)
Definition column_perm (dim : nat) (sigma tau : nat -> nat) : Prop :=
  forall f, f < dim -> sigma f < dim /\ tau f < dim /\ sigma (tau f) = f /\ tau (sigma f) = f.
(** Column [f] of the new data is column [sigma f] of the old data. *)
Definition permute_X {A} (sigma : nat -> nat) (X : nat -> nat -> A) : nat -> nat -> A := fun i f => X i (sigma f).
Definition permute_columns {A Y} (sigma : nat -> nat) (d : tset A Y) : tset A Y :=
  mkSet (ts_n d) (ts_dim d) (permute_X sigma (ts_X d)) (ts_y d)
    (map (fun f => nth (sigma f) (ts_names d) String.EmptyString) (seq 0 (ts_dim d))).
(** The same tree with renumbered split dimensions. *)
Fixpoint renumber {V S P} (tau : nat -> nat) (t : tree (pdesc string V) S P) : tree (pdesc string V) S P :=
  match t with
  | Leaf i => Leaf i
  | Split i s a b c1 c2 => Split i (mkDesc (tau (sd_dim s)) (sd_name s) (sd_val s)) a b (renumber tau c1) (renumber tau c2)
  end.

(** No cut of another feature is as good as the chosen one. *)
Definition no_rival {P} (pp prec : R) (ev : P -> list R -> R) (dflt : nat -> P) (d : tset R R)
    (rows : list nat) (t : tree (pdesc string R) R P) : Prop :=
  match t with
  | Leaf _ => True
  | Split i s _ v_best _ _ =>
      forall f a b v, split_value pp prec (ev (node_prior dflt i)) (i_level i) d rows f a b v -> v = v_best -> f = sd_dim s
  end.
