(** * SimilarSpec: similarities of the feature space, for C78. *)
From Coq Require Import Reals.
From Verif Require Import Prelude Tree Perp RealOps Api Hyper.
Local Open Scope R_scope.

(** Linear combinations of two vectors. *)
Definition combine_with (a b : R) (x z : list R) : list R := map2 (fun p q => a * p + b * q) x z.
(** [A] is a linear map of vectors of length [n] that keeps inner products: a rotation or reflection. *)
Definition isometry (n : nat) (A : list R -> list R) : Prop :=
  (forall x, length x = n -> length (A x) = n) /\
  (forall x z, length x = n -> length z = n -> dot (A x) (A z) = dot x z) /\
  (forall a b x z, length x = n -> length z = n -> A (combine_with a b x z) = combine_with a b (A x) (A z)).
(** The point [s * A x + v]. *)
Definition moved (A : list R -> list R) (s : R) (v x : list R) : list R := combine_with s 1 (A x) v.
(** The training set with every row moved. *)
Definition moved_set {Y} (A : list R -> list R) (s : R) (v : list R) (d : hset (list R) Y) : hset (list R) Y :=
  mkHSet (hs_n d) (hs_dim d) (fun i => moved A s v (hs_X d i)) (hs_y d).
(** The tree with every normal turned and every origin moved; all else as it is. *)
Fixpoint moved_tree {S P} (A : list R -> list R) (s : R) (v : list R) (t : tree (plane (list R) (list R)) S P)
    : tree (plane (list R) (list R)) S P :=
  match t with
  | Leaf i => Leaf i
  | Split i pl a b c1 c2 =>
      Split i (mkPlane (A (p_normal pl)) (moved A s v (p_origin pl))) a b (moved_tree A s v c1) (moved_tree A s v c2)
  end.
(** The same hyper-parameters, with another split precision. *)
Definition with_prec {P} (prec : R) (h : hyper P) : hyper P := mkHyper (h_pp h) (h_prior h) (h_delta h) (h_prune h) prec.

(** The sort sees its keys through comparisons only. *)
Definition by_comparison (srt : (nat -> R) -> nat -> list nat) : Prop := forall key key' n,
  (forall i j, (i < n)%nat -> (j < n)%nat -> (key i <= key j <-> key' i <= key' j)) -> srt key n = srt key' n.

(** The candidates stand for vectors of length [n] other than 0. *)
Definition proper {C} (n : nat) (pre : C -> list R) (cands : list bool -> list C) : Prop :=
  forall path c, In c (cands path) -> length (pre c) = n /\ exists j, nth j (pre c) 0 <> 0.
