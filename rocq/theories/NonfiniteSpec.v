(** * NonfiniteSpec: finite targets, and trees of numbers seen as trees of possibly special values. *)
From Coq Require Import Reals.
From Verif Require Import Prelude Tree Perp RealOps Reg Api Hyper Nonfinite.
Local Open Scope nat_scope.

Definition number (a : ext) : Prop := exists r, a = Fin r.

(** A tree with other types of scores and posteriors. *)
Definition map_info {P P'} (e : P -> P') (i : ninfo P) : ninfo P' :=
  mkInfo (option_map e (i_prior i)) (i_level i) (i_n_data i) (i_n_dim i) (e (i_post i)).
Fixpoint map_tree {D S S' P P'} (e : P -> P') (s : S -> S') (t : tree D S P) : tree D S' P' :=
  match t with
  | Leaf i => Leaf (map_info e i)
  | Split i d a b c1 c2 => Split (map_info e i) d (s a) (s b) (map_tree e s c1) (map_tree e s c2)
  end.
Definition map_res {A B} (f : A -> B) (r : res A) : res B := match r with Ok a => Ok (f a) | Err e => Err e end.

(** The same rows with targets that are floats. *)
Definition as_floats (d : tset R R) : tset R ext := mkSet (ts_n d) (ts_dim d) (ts_X d) (fun i => Fin (ts_y d i)) (ts_names d).
Definition as_hfloats (d : hset (list R) R) : hset (list R) ext := mkHSet (hs_n d) (hs_dim d) (hs_X d) (fun i => Fin (hs_y d i)).

(** The same rows, the target of row [r] replaced by [a]. *)
Definition poisoned {A} (r : nat) (a : ext) (d : tset A ext) : tset A ext :=
  mkSet (ts_n d) (ts_dim d) (ts_X d) (fun i => if Nat.eqb i r then a else ts_y d i) (ts_names d).
