(** * RedundantSpec: columns that add nothing. *)
From Coq Require Import Reals.
From Verif Require Import Prelude Tree Perp Api ApiSpec.
Local Open Scope nat_scope.

(** [d'] has the columns of [d] and, behind them, constant columns and copies of columns of [d]. *)
Definition padded (d d' : tset R R) : Prop :=
  ts_n d' = ts_n d /\ ts_dim d <= ts_dim d' /\
  (forall i, i < ts_n d -> ts_y d' i = ts_y d i /\ forall f, f < ts_dim d -> ts_X d' i f = ts_X d i f) /\
  (forall f, f < ts_dim d -> nth_error (ts_names d') f = nth_error (ts_names d) f) /\
  (forall f, ts_dim d <= f < ts_dim d' ->
     (forall i j, i < ts_n d -> j < ts_n d -> ts_X d' i f = ts_X d' j f) \/
     (exists g, g < ts_dim d /\ forall i, i < ts_n d -> ts_X d' i f = ts_X d i g)).

(** The same tree, with the number of columns recorded at its nodes replaced. *)
Definition with_dim {P} (n : nat) (i : ninfo P) : ninfo P :=
  mkInfo (i_prior i) (i_level i) (i_n_data i) (match i_n_dim i with Some _ => Some n | None => None end) (i_post i).
Fixpoint tree_with_dim {D S P} (n : nat) (t : tree D S P) : tree D S P :=
  match t with
  | Leaf i => Leaf (with_dim n i)
  | Split i s a b c1 c2 => Split (with_dim n i) s a b (tree_with_dim n c1) (tree_with_dim n c2)
  end.
