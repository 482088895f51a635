(** * MonoSpec: the same tree up to its thresholds. *)
From Verif Require Import Prelude Tree Perp RealOps Api.
Local Open Scope nat_scope.

(** A strictly increasing change of every feature (logarithm, rank, unit, ...). *)
Definition increasing (g : nat -> R -> R) : Prop := forall f a b, (a < b)%R -> (g f a < g f b)%R.
Definition map_X (g : nat -> R -> R) (X : nat -> nat -> R) : nat -> nat -> R := fun i f => g f (X i f).
Definition map_features {Y} (g : nat -> R -> R) (d : tset R Y) : tset R Y :=
  mkSet (ts_n d) (ts_dim d) (map_X g (ts_X d)) (ts_y d) (ts_names d).

(** The trees agree in everything but the thresholds, and the thresholds send the same rows to either side. *)
Fixpoint alike {S P} (X X' : nat -> nat -> R) (rows : list nat) (t t' : tree (pdesc string R) S P) : Prop :=
  match t, t' with
  | Leaf i, Leaf i' => i = i'
  | Split i s a b c1 c2, Split i' s' a' b' c1' c2' =>
      i = i' /\ sd_dim s = sd_dim s' /\ sd_name s = sd_name s' /\ a = a' /\ b = b' /\
      (forall r, In r rows -> goes_left X s r = goes_left X' s' r /\ goes_right X s r = goes_right X' s' r) /\
      alike X X' (filter (goes_left X s) rows) c1 c1' /\ alike X X' (filter (goes_right X s) rows) c2 c2'
  | _, _ => False
  end.
