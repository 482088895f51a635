(** * InfluenceSpec: queries that differ in one column only. *)
From Coq Require Import Reals.
From Verif Require Import Prelude.
Local Open Scope nat_scope.

Definition same_but (f : nat) (Xq Xq' : nat -> nat -> R) : Prop := forall i g, g <> f -> Xq i g = Xq' i g.
Definition same_rows_but (f : nat) (Xq Xq' : nat -> list R) : Prop :=
  forall i, length (Xq i) = length (Xq' i) /\ forall g, g <> f -> nth g (Xq i) 0%R = nth g (Xq' i) 0%R.
(** The importance of feature [f] is 0 or nan. *)
Definition no_importance (f : nat) (v : list (option R)) : Prop := nth_error v f = Some (Some 0%R) \/ nth_error v f = Some None.
