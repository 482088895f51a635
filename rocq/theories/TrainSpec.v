(** * TrainSpec: answers of a fitted tree on its own training rows. *)
From Verif Require Import Prelude Tree Perp RealOps Clf Reg Spec OptSpec ClfSpec RegSpec Api ApiSpec Hyper HyperSpec.
Local Open Scope nat_scope.

(** The rows of each leaf, from left to right. *)
Fixpoint groups {D S P} (go1 go2 : D -> nat -> bool) (rows : list nat) (t : tree D S P) : list (list nat) :=
  match t with
  | Leaf _ => [rows]
  | Split _ d _ _ c1 c2 => groups go1 go2 (filter (go1 d) rows) c1 ++ groups go1 go2 (filter (go2 d) rows) c2
  end.
(** The target values of the training rows of each leaf. *)
Definition leaf_targets {S P} (d : tset R R) (t : tree (pdesc string R) S P) : list (list R) :=
  map (targets d) (groups (goes_left (ts_X d)) (goes_right (ts_X d)) (all_rows d) t).
Definition hleaf_targets {S P} (d : hset (list R) R) (t : tree (plane (list R) (list R)) S P) : list (list R) :=
  map (htargets d) (groups (behind (hs_X d)) (before (hs_X d)) (hrows d) t).

(** Number of answers that equal the target, and sum of the squared differences. *)
Definition hits (n : nat) (y : nat -> R) (out : list R) : nat := length (filter (fun i => Reqb (nth i out 0%R) (y i)) (seq 0 n)).
Definition sq_error (n : nat) (y : nat -> R) (out : list R) : R := vsum (map (fun i => (nth i out 0 - y i) ^ 2)%R (seq 0 n)).

(** Size of the largest of the classes 0..k-1. *)
Definition largest_class (k : nat) (ys : list R) : nat := list_max (map (fun c => count_label c ys) (seq 0 k)).

(** Squared error of a leaf that answers with the mean shrunk towards the prior mean. *)
Definition shrunk_error (prior : ng) (ys : list R) : R :=
  (ssd ys + INR (length ys) * (ng_kappa prior / (ng_kappa prior + INR (length ys)) * (mean ys - ng_mu prior)) ^ 2)%R.

(** [x] is the log prior odds of the splits of a tree against not splitting: a split at level [l] on a feature with [m] admissible
    cuts has weight pp^(1+l) / (m dim), not splitting there has weight 1 - pp^(1+l). *)
Fixpoint log_odds {S P} (pp prec : R) (d : tset R R) (rows : list nat) (t : tree (pdesc string R) S P) (x : R) : Prop :=
  match t with
  | Leaf _ => x = 0%R
  | Split i s _ _ c1 c2 => exists m x1 x2, 0 < m /\ n_admissible prec d (sd_dim s) rows m /\
      log_odds pp prec d (filter (goes_left (ts_X d) s) rows) c1 x1 /\
      log_odds pp prec d (filter (goes_right (ts_X d) s) rows) c2 x2 /\
      x = (ln (pp ^ (1 + i_level i) / (INR m * INR (ts_dim d))) - ln (1 - pp ^ (1 + i_level i)) + x1 + x2)%R
  end.
