(** * NamesSpec: feature names, and shapes of arguments. *)
From Verif Require Import Prelude Tree Perp Object ObjectSpec Validate Model ModelSpec ModelTargets CastSpec.
Local Open Scope nat_scope.

(** Names of the [m] columns of the argument [X]: those given by the caller, else those of the data frame, else 'x0', 'x1', ...
    ([x_name i] is 'x<i>'). *)
Definition documented_names {E NM} (x_name : nat -> NM) (a : fit_args E NM) (m : nat) : list NM :=
  match fa_names a, fa_X a with
  | Some l, _ => l
  | None, XFrame _ columns => columns
  | None, _ => map x_name (seq 0 m)
  end.

(** [n] is a node of the object [o]. *)
Inductive within {U S P} (n : obj U S P) : obj U S P -> Prop :=
| within_self : within n n
| within_child1 a o c2 : within n o -> within n (Obj a (Ref o) c2)
| within_child2 a o c1 : within n o -> within n (Obj a c1 (Ref o)).

(** A node that splits has the index of one of the [m] columns and that column's name. *)
Definition named {NM V} (names : list NM) (m : nat) (u : psplit NM V) : Prop :=
  forall v, ps_val u = Some (Some v) ->
  exists dim nm, ps_dim u = Some (Z.of_nat dim) /\ dim < m /\ ps_name u = Some (Some nm) /\ nth_error names dim = Some nm.

(** Entry of a data frame with [m] columns in row [i] of the column called [nm]. *)
Definition cell {E NM} (x : xin E NM) (m i : nat) (nm : NM) (v : E) : Prop :=
  match x with
  | XFrame a columns => exists j, j < m /\ nth_error columns j = Some nm /\ nth_error (a_data a) (i * m + j) = Some v
  | _ => False
  end.
(** Two data frames with [n] rows and the same columns, possibly in another order. *)
Definition same_table {E NM} (x x' : xin E NM) (n m : nat) : Prop :=
  query_matrix x m /\ query_matrix x' m /\ query_rows x = n /\ query_rows x' = n /\
  forall i nm v, i < n -> (cell x m i nm v <-> cell x' m i nm v).

(** Number of axes of the argument [X]. *)
Definition axes {E NM} (x : xin E NM) : nat := match x with XFrame a _ | XList a | XArray a => ndim a | XScalar _ _ => 2 end.
(** The target alone is acceptable: for a regression tree any one-dimensional array, for a classification tree the right label set. *)
Definition good_target {E Y P} (lab : Y -> fl) (n_classes : P -> nat) (cy : cast E Y) (check : option P -> arr Y -> res unit) (prior : option P) (y : arr E) : Prop :=
  supported (a_dtype y) = true /\
  ((reg_checks lab check /\ ndim (squeeze y) = 1) \/
   (clf_checks n_classes lab check /\ exists p, prior = Some p /\ 2 <= n_classes p /\ right_target cy lab (n_classes p) y)).
