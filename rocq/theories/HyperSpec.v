(** * HyperSpec: vocabulary of the properties of hyperplane trees. *)
From Coq Require Import Reals Permutation.
From Verif Require Import Prelude Tree Perp RealOps Clf Reg Api Hyper Spec OptSpec OptProofs ClfSpec RegSpec ApiSpec.
Local Open Scope nat_scope.

(** At least one row and one column; all rows have the same length. *)
Definition hset_ok {Y} (d : hset (list R) Y) : Prop :=
  0 < hs_n d /\ 0 < hs_dim d /\ forall i, i < hs_n d -> length (hs_X d i) = hs_dim d.

(** A valid classification problem with [k] classes and an explicit prior. *)
Definition hclf_setting (srt : (nat -> R) -> nat -> list nat) (k : nat) (prior : list R)
    (h : hyper (list R)) (d : hset (list R) R) : Prop :=
  sorts Rleb srt /\ (0 < h_pp h < 1)%R /\ (0 <= h_prec h)%R /\ hset_ok d /\ h_prior h = Some prior /\
  length prior = k /\ Forall (fun a => (0 < a)%R) prior /\
  (forall i, i < hs_n d -> exists c, c < k /\ hs_y d i = INR c).
(** A valid regression problem: [prior] is the given or the default prior. *)
Definition hreg_setting (srt : (nat -> R) -> nat -> list nat) (prior : ng) (h : hyper ng)
    (d : hset (list R) R) : Prop :=
  sorts Rleb srt /\ (0 < h_pp h < 1)%R /\ (0 <= h_prec h)%R /\ hset_ok d /\
  prior = match h_prior h with Some p => p | None => default_ng (hs_n d) end /\
  (0 < ng_kappa prior)%R /\ (0 < ng_alpha prior)%R /\ (0 < ng_beta prior)%R.
(** All candidate vectors have one entry per column. *)
Definition cands_ok {C} (pre : C -> list R) (cands : list bool -> list C) (dim : nat) : Prop :=
  forall path c, In c (cands path) -> length (pre c) = dim.

Definition hrows {W Y} (d : hset W Y) : list nat := seq 0 (hs_n d).
Definition htargets {W Y} (d : hset W Y) (rows : list nat) : list Y := map (hs_y d) rows.

(** [Pr rows n] for every node [n], [rows] being the training rows that predict routes through [n]. *)
Definition every_hnode {S P} (d : hset (list R) R) (t : tree (plane (list R) (list R)) S P)
    (Pr : list nat -> tree (plane (list R) (list R)) S P -> Prop) : Prop :=
  nodes_ok (behind (hs_X d)) (before (hs_X d)) Pr (hrows d) t.

(** Row [i] of the new training set is row [sigma i] of the old one. *)
Definition hreorder {W Y} (sigma : nat -> nat) (d : hset W Y) : hset W Y :=
  mkHSet (hs_n d) (hs_dim d) (fun i => hs_X d (sigma i)) (fun i => hs_y d (sigma i)).

(** ** What one evaluation of the objective contributes

    For the rows of a node, in the order in which they are stored, and the unit vector [nrm] of the
    candidate.  [value l r n] is the value of a split into the targets [l] and [r] if there are [n]
    candidate positions. *)
Section Outcome.
Variable prec : R.
Variable srt : (nat -> R) -> nat -> list nat.
Variable value : list R -> list R -> nat -> R.
Variable X : nat -> list R.
Variable y : nat -> R.
Variable rows : list nat.

(** Position [k] is a candidate: the rows stored at [k-1] and [k] have different projections.  (The code
    looks at the rows in storage order, not in sorted order.) *)
Definition candidate (nrm : list R) (k : nat) : Prop :=
  1 <= k < length rows /\ (Rabs (dot (X (nth k rows 0%nat)) nrm - dot (X (nth (k - 1)%nat rows 0%nat)) nrm) > prec)%R.
(** Rows sorted by projection. *)
Definition sorted_rows (nrm : list R) : list nat :=
  map (fun j => nth j rows 0) (srt (fun j => dot (X (nth j rows 0)) nrm) (length rows)).
(** Value of cutting the sorted rows at [k], if there are [m] candidates. *)
Definition cut_value (nrm : list R) (m k : nat) : R :=
  value (map y (firstn k (sorted_rows nrm))) (map y (skipn k (sorted_rows nrm))) m.
Definition n_candidates (nrm : list R) (m : nat) : Prop :=
  exists ks, NoDup ks /\ length ks = m /\ forall k, In k ks <-> candidate nrm k.

(** The first best candidate position [k] has value [v]; the plane through the middle of the two rows at
    this position of the sorted order has the summed distance [dist] from all rows. *)
Definition outcome (nrm : list R) (v dist : R) (pl : plane (list R) (list R)) : Prop :=
  exists m k, n_candidates nrm m /\ candidate nrm k /\ v = cut_value nrm m k /\
    (forall k', candidate nrm k' -> (cut_value nrm m k' <= v)%R /\ (k' < k -> (cut_value nrm m k' < v)%R)) /\
    p_normal pl = nrm /\
    p_origin pl = map2 (fun a b => (a + b) / 2)%R (X (nth (k - 1) (sorted_rows nrm) 0)) (X (nth k (sorted_rows nrm) 0)) /\
    dist = vsum (map (fun i => Rabs (dot (X i) nrm - dot nrm (p_origin pl))) rows).
End Outcome.

(** An optimizer chose the candidates [cs] (latest first), having seen the values [seen]. *)
Fixpoint chosen {C} (next : list R -> option C) (cs : list C) (seen : list R) : Prop :=
  match cs, seen with
  | [], [] => True
  | c :: cs', _ :: seen' => next seen' = Some c /\ chosen next cs' seen'
  | _, _ => False
  end.
(** What the objective remembers after the candidates with unit vectors [nrms] and values [seen]. *)
Definition best_kept (prec : R) srt (value : list R -> list R -> nat -> R) (X : nat -> list R) (y : nat -> R) (rows : list nat)
    (ns : R) (nrms : list (list R)) (seen : list R) (st : hopt (list R) (list R) R R) : Prop :=
  let outc := outcome prec srt value X y rows in
  o_evals st = length seen /\
  Forall2 (fun nrm v => ((forall k, ~ candidate prec X rows nrm k) /\ v = ns) \/ exists dist pl, outc nrm v dist pl) nrms seen /\
  (ns <= o_best st)%R /\ (forall v, In v seen -> (v <= o_best st)%R) /\ (o_best st = ns \/ In (o_best st) seen) /\
  match o_plane st with
  | Some pl => exists nrm, In nrm nrms /\ outc nrm (o_best st) (o_dist st) pl /\
      forall nrm' dist' pl', In nrm' nrms -> outc nrm' (o_best st) dist' pl' -> (dist' <= o_dist st)%R
  | None => o_best st = ns /\
      forall nrm v dist pl, In nrm nrms -> outc nrm v dist pl -> (v < ns \/ (v = ns /\ dist <= 0))%R
  end.

(** ** Cuts of the rows of a node by a hyperplane perpendicular to [nrm] *)
Definition side1 (X : nat -> list R) (nrm : list R) (c : R) (rows : list nat) : list nat :=
  filter (fun i => Rltb (dot (X i) nrm) c) rows.
Definition side2 (X : nat -> list R) (nrm : list R) (c : R) (rows : list nat) : list nat :=
  filter (fun i => Rgeb (dot (X i) nrm) c) rows.
(** All rows have different projections, further apart than the split precision. *)
Definition spread (prec : R) (X : nat -> list R) (nrm : list R) (rows : list nat) : Prop :=
  forall i j, In i rows -> In j rows -> i <> j -> (Rabs (dot (X i) nrm - dot (X j) nrm) > prec)%R.

(** Value of a partition of [n] rows with pairwise different projections in dimension [dim]. *)
Definition partition_value (pp : R) (ev : list R -> R) (lvl dim n : nat) (l r : list R) : R :=
  (ln (pp ^ (1 + lvl) / (INR (n - 1) * INR dim)) + ev l + ev r)%R.

(** The evidence recorded at a split is that of the actual partition. *)
Definition recorded_evidence {P} (pp : R) (ev : list R -> R) (d : hset (list R) R) (rows : list nat)
    (t : tree (plane (list R) (list R)) R P) : Prop :=
  match t with
  | Leaf _ => True
  | Split i pl v_no v_best _ _ =>
      v_no = (ln (1 - pp ^ (1 + i_level i)) + ev (htargets d rows))%R /\ (v_no <= v_best)%R /\
      v_best = partition_value pp ev (i_level i) (hs_dim d) (length rows)
                 (htargets d (filter (behind (hs_X d) pl) rows)) (htargets d (filter (before (hs_X d) pl) rows))
  end.

(** The hyperplane of a split is a best one among the candidates [cands path] evaluated at the node, ties
    being broken by the summed distance; the node became a leaf because it has one sample or one target
    value, because no candidate improves on not splitting, or because the best hyperplane leaves one side
    empty. *)
Definition optimal_node {C P} (pre : C -> list R) (prec : R) srt (cands : list bool -> list C) (pp : R) (ev : list R -> R)
    (d : hset (list R) R) (rows : list nat) (t : tree (plane (list R) (list R)) R P) : Prop :=
  let lvl := i_level (info t) in
  let ns := (ln (1 - pp ^ (1 + lvl)) + ev (htargets d rows))%R in
  let value l r m := (ln (pp ^ (1 + lvl) / (INR m * INR (hs_dim d))) + ev l + ev r)%R in
  let outc := outcome prec srt value (hs_X d) (hs_y d) rows in
  let best path pl v := exists c dist, In c (cands path) /\ outc (unit_vec (pre c)) v dist pl /\ (ns <= v)%R /\
    forall c' v' dist' pl', In c' (cands path) -> outc (unit_vec (pre c')) v' dist' pl' ->
      (v' <= v)%R /\ (v' = v -> (dist' <= dist)%R) in
  match t with
  | Split _ pl v_no v_best _ _ =>
      v_no = ns /\ exists path, length path = lvl /\ best path pl v_best
  | Leaf _ =>
      length rows <= 1 \/ (forall i j, In i rows -> In j rows -> hs_y d i = hs_y d j) \/
      exists path, length path = lvl /\
      ((forall c v dist pl, In c (cands path) -> outc (unit_vec (pre c)) v dist pl -> (v < ns \/ (v = ns /\ dist <= 0))%R) \/
       (exists pl v, best path pl v /\ (filter (behind (hs_X d) pl) rows = [] \/ filter (before (hs_X d) pl) rows = [])))
  end.

(** Unit normals. *)
Definition unit_normals {S P} (dim : nat) (t : tree (plane (list R) (list R)) S P) : Prop :=
  forall pl a b, In (pl, a, b) (splits t) -> length (p_normal pl) = dim /\ dot (p_normal pl) (p_normal pl) = 1%R.

(** Feature importance: gains weighted by the absolute entries of the unit normals. *)
Definition hgain (s : plane (list R) (list R) * R * R) : R := let '(_, no, best) := s in (best - no)%R.
Definition hweight (f : nat) (s : plane (list R) (list R) * R * R) : R :=
  (hgain s * Rabs (nth f (p_normal (fst (fst s))) 0))%R.
Definition hgain_on {P} (f : nat) (t : tree (plane (list R) (list R)) R P) : R := vsum (map (hweight f) (splits t)).

(** Training rows that end in the same leaf as row [q] of the query matrix. *)
Definition hleaf_mates {S P} (d : hset (list R) R) (t : tree (plane (list R) (list R)) S P) (Xq : nat -> list R) (q : nat) : list nat :=
  same_leaf (fun pl => before Xq pl q) (before (hs_X d)) t (hrows d).
(** One leaf value per query row, computed from this row alone. *)
Definition hrowwise {S P O} (val : ninfo P -> O) (t : tree (plane (list R) (list R)) S P) (Xq : nat -> list R) (m : nat)
    (out : list O) : Prop :=
  let back q pl := (dot (Xq q) (p_normal pl) < dot (p_normal pl) (p_origin pl))%R in
  let front q pl := (dot (Xq q) (p_normal pl) >= dot (p_normal pl) (p_origin pl))%R in
  length out = m /\ forall q, q < m -> exists l,
    reaches (back q) (front q) t l /\ (forall l', reaches (back q) (front q) t l' -> l' = l) /\
    nth_error out q = Some (val l).
(** Normalised gains, weighted by the absolute entries of the unit normals. *)
Definition is_himportance {P} (n_dim : nat) (t : tree (plane (list R) (list R)) R P) (v : list R) : Prop :=
  length v = n_dim /\ vsum v = 1%R /\
  forall f, f < n_dim -> (0 <= nth f v 0)%R /\
    nth f v 0%R = (hgain_on f t / vsum (map (fun g => hgain_on g t) (seq 0 n_dim)))%R.
