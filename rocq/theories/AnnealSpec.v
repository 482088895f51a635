(** * AnnealSpec: what a run of the simulated annealing optimizer looks like from outside (C72).

    The properties speak of the sequence of points passed to the objective only; nothing here mentions the dictionary of candidates, the
    counter of idle rounds or the step size that the program keeps. *)
From Coq Require Import Reals.
From Verif Require Import Prelude.
Local Open Scope nat_scope.

(** The number of different values of a list that are smaller than [v] (0: [v] is at most the smallest). *)
Definition rank (vals : list R) (v : R) : nat := length (nodup Req_EM_T (filter (fun w => if Rlt_dec w v then true else false) vals)).
(** The number of different values of a list. *)
Definition n_distinct (vals : list R) : nat := length (nodup Req_EM_T vals).

(** The points evaluated before round [t] and in round [t], if [n_scan] points come first and every round has [n_keep]. *)
Definition before {A} (n_scan n_keep : nat) (pts : list A) (t : nat) : list A := firstn (n_scan + n_keep * t) pts.
Definition block {A} (n_scan n_keep : nat) (pts : list A) (t : nat) : list A := firstn n_keep (skipn (n_scan + n_keep * t) pts).

(** Round [t] found a value smaller than all earlier ones. *)
Definition improved {A} (val : A -> R) (n_scan n_keep : nat) (pts : list A) (t : nat) : Prop :=
  exists p, In p (block n_scan n_keep pts t) /\ forall q, In q (before n_scan n_keep pts t) -> (val p < val q)%R.

(** Coordinate by coordinate, [p] is at most [r] away from [c]. *)
Definition near (r : R) (c p : list R) : Prop := length p = length c /\ forall j, (Rabs (nth j p 0 - nth j c 0) <= r)%R.

(** [c] is the last of these points with its value. *)
Definition latest {A} (val : A -> R) (done : list A) (c : A) : Prop := exists a b, done = a ++ c :: b /\ forall p, In p b -> val p <> val c.

(** The whole run: [rnd k] is the [k]-th uniform draw from [0, 1), [val] the objective.
    - [n_scan] points made of the first draws come first, then at least 50 rounds of [n_keep] points each;
    - point number [i] of round [t] is an earlier point plus fresh noise of size [spread^t], clipped to the unit cube; that earlier
      point is the last one with its value, and its value has rank [i * k / n_keep] among all values found before the round, where [k] is [n_keep] or the number of different
      values if there are fewer (so the best point so far is moved first, and never one outside the [n_keep] best);
    - none of the last 50 rounds improved the best value, and the run stopped as soon as that was so. *)
Definition annealing_run (rnd : nat -> R) (val : list R -> R) (n n_scan n_keep : nat) (spread : R) (pts : list (list R)) (T : nat) : Prop :=
  50 <= T /\ length pts = n_scan + n_keep * T /\
  (forall i, i < n_scan -> nth i pts [] = map (fun j => rnd (n * i + j)) (seq 0 n)) /\
  (forall t i, t < T -> i < n_keep ->
     let m := n_scan + n_keep * t + i in let old := map val (before n_scan n_keep pts t) in
     exists c, latest val (firstn m pts) c /\ In (val c) old /\ rank old (val c) = i * Nat.min n_keep (n_distinct old) / n_keep /\
       length (nth m pts []) = n /\ length c = n /\
       forall j, j < n -> nth j (nth m pts []) 0%R = Rmin 1 (Rmax 0 (nth j c 0 + spread ^ t * (2 * rnd (n * m + j)%nat - 1)))%R) /\
  (forall t, T - 50 <= t < T -> ~ improved val n_scan n_keep pts t) /\
  (forall t, t + 50 < T -> exists t', t <= t' < t + 50 /\ improved val n_scan n_keep pts t').
