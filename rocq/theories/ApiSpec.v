(** * ApiSpec: valid settings and the node-level vocabulary used in the property statements. *)
From Coq Require Import Permutation.
From Verif Require Import Prelude Tree Perp RealOps Clf Reg Api Spec OptSpec OptProofs ClfSpec RegSpec.
Local Open Scope nat_scope.

(** An argsort that returns some permutation of the row numbers (the least to expect of it). *)
Definition permutes {A} (srt : (nat -> A) -> nat -> list nat) : Prop :=
  forall key n, Permutation (srt key n) (seq 0 n).

(** At least one row, at least one column, a name for every column, and sizes that fit a machine. *)
Definition tset_ok {A Y} (d : tset A Y) : Prop :=
  0 < ts_n d /\ (N.of_nat (ts_n d) <= 2 ^ 64)%N /\ 0 < ts_dim d <= length (ts_names d).

Definition hyper_ok {P} (h : hyper P) : Prop := (0 < h_pp h < 1)%R /\ (0 <= h_delta h)%R /\ (0 <= h_prec h)%R.

(** A valid classification problem with [k] classes: an explicit positive prior with [k] entries and
    targets among 0..k-1; [srt] sorts. *)
Definition clf_setting (srt : (nat -> R) -> nat -> list nat) (k : nat) (prior : list R)
    (h : hyper (list R)) (d : tset R R) : Prop :=
  sorts Rleb srt /\ hyper_ok h /\ tset_ok d /\ h_prior h = Some prior /\
  length prior = k /\ Forall (fun a => (0 < a)%R) prior /\
  (forall i, i < ts_n d -> exists c, c < k /\ ts_y d i = INR c).

(** A valid regression problem: [prior] is the given or the default prior at the root. *)
Definition default_ng (n : nat) : ng :=
  let c := INR (Nat.max 1 (n / 100)) in mkNG 0 c (c / 2) (c / 2).
Definition reg_setting (srt : (nat -> R) -> nat -> list nat) (prior : ng) (h : hyper ng) (d : tset R R) : Prop :=
  sorts Rleb srt /\ hyper_ok h /\ tset_ok d /\
  prior = match h_prior h with Some p => p | None => default_ng (ts_n d) end /\
  (0 < ng_kappa prior)%R /\ (0 < ng_alpha prior)%R /\ (0 < ng_beta prior)%R.

(** All training rows, and those that predict routes to the same leaf as row [q] of the query matrix. *)
Definition all_rows {A Y} (d : tset A Y) : list nat := seq 0 (ts_n d).
Definition leaf_mates {S P} (d : tset R R) (t : tree (pdesc string R) S P) (Xq : nat -> nat -> R) (q : nat) : list nat :=
  same_leaf (fun s => goes_right Xq s q) (goes_right (ts_X d)) t (all_rows d).
Definition targets {A Y} (d : tset A Y) (rows : list nat) : list Y := map (ts_y d) rows.

(** [every_node d t Pr]: [Pr rows n] for every node [n] of [t], [rows] being the training rows that
    predict routes through [n]. *)
Definition every_node {S P} (d : tset R R) (t : tree (pdesc string R) S P)
    (Pr : list nat -> tree (pdesc string R) S P -> Prop) : Prop :=
  nodes_ok (goes_left (ts_X d)) (goes_right (ts_X d)) Pr (all_rows d) t.

(** Neighbouring values of feature [f] among the rows that are further apart than [prec]. *)
Definition admissible (prec : R) (d : tset R R) (f : nat) (rows : list nat) (a b : R) : Prop :=
  (exists i, In i rows /\ ts_X d i f = a) /\ (exists i, In i rows /\ ts_X d i f = b) /\
  (a < b)%R /\ (b - a > prec)%R /\
  (forall i, In i rows -> (ts_X d i f <= a)%R \/ (b <= ts_X d i f)%R).
(** Number of admissible cuts of feature [f]. *)
Definition n_admissible (prec : R) (d : tset R R) (f : nat) (rows : list nat) (m : nat) : Prop :=
  exists cs, NoDup cs /\ length cs = m /\ forall a b, In (a, b) cs <-> admissible prec d f rows a b.

(** Value of splitting the rows of a node between the admissible values a, b of feature [f]; [ev]
    is the log evidence of a list of targets. *)
Definition split_value (pp prec : R) (ev : list R -> R) (lvl : nat) (d : tset R R) (rows : list nat)
    (f : nat) (a b v : R) : Prop :=
  f < ts_dim d /\ admissible prec d f rows a b /\ exists m, n_admissible prec d f rows m /\
  v = (ln (pp ^ (1 + lvl) / (INR m * INR (ts_dim d)))
       + ev (targets d (filter (fun i => Rleb (ts_X d i f) a) rows))
       + ev (targets d (filter (fun i => Rltb a (ts_X d i f)) rows)))%R.
Definition stop_value (pp : R) (ev : list R -> R) (lvl : nat) (d : tset R R) (rows : list nat) : R :=
  (ln (1 - pp ^ (1 + lvl)) + ev (targets d rows))%R.

(** Prior used at a node: its attribute, or the default prior. *)
Definition node_prior {P} (dflt : nat -> P) (i : ninfo P) : P :=
  match i_prior i with Some p => p | None => dflt (i_n_data i) end.

(** Optimality of the split stored in a node. *)
Definition best_split_node {P} (pp prec : R) (ev : P -> list R -> R) (dflt : nat -> P) (d : tset R R)
    (rows : list nat) (t : tree (pdesc string R) R P) : Prop :=
  match t with
  | Leaf _ => True
  | Split i s v_no v_best _ _ =>
      let e := ev (node_prior dflt i) in
      let lvl := i_level i in
      v_no = stop_value pp e lvl d rows /\
      exists a b,
        sd_val s = ((a + b) / 2)%R /\
        split_value pp prec e lvl d rows (sd_dim s) a b v_best /\
        (v_best > v_no)%R /\
        (forall f' a' b' v', split_value pp prec e lvl d rows f' a' b' v' ->
           (v' <= v_best)%R /\
           (v' = v_best -> sd_dim s < f' \/ sd_dim s = f' /\ (a <= a')%R))
  end.
(** Why a node is a leaf. *)
Definition justified_leaf {P} (pp prec : R) (ev : P -> list R -> R) (dflt : nat -> P) (d : tset R R)
    (rows : list nat) (t : tree (pdesc string R) R P) : Prop :=
  match t with
  | Split _ _ _ _ _ _ => True
  | Leaf i =>
      let e := ev (node_prior dflt i) in
      length rows = 1 \/ (forall j j', In j rows -> In j' rows -> ts_y d j = ts_y d j') \/
      (forall f a b v, split_value pp prec e (i_level i) d rows f a b v ->
         (v <= stop_value pp e (i_level i) d rows)%R)
  end.

(** Default priors by node size (classification.py:57-60). *)
Definition clf_dflt (dim n : nat) : list R := repeat (INR (Nat.max 1 (n / 100))) dim.

(** Log evidences. *)
Definition clf_ev (prior ys : list R) : R := ln (dm_prob prior ys).

(** Prior attribute, sample count and posterior of every node in terms of the training rows that
    predict routes through it.  [attr] is the node's prior attribute, [q] the prior its posterior
    is computed from: the attribute itself for a fitted node, and the parent's [q] for a child that was
    not fitted any further (such a child has no [n_dim_]).  [post] is the posterior update,
    [strengthen] the (delta-weighted) update giving the children's priors. *)
Fixpoint node_data {S P} (post strengthen : P -> list R -> P) (d : tset R R)
    (attr : option P) (q : P) (rows : list nat) (t : tree (pdesc string R) S P) : Prop :=
  i_prior (info t) = attr /\ rows <> [] /\ i_n_data (info t) = length rows /\
  i_post (info t) = post q (targets d rows) /\
  match t with
  | Leaf _ => True
  | Split _ s _ _ c1 c2 =>
      let rows1 := filter (goes_left (ts_X d) s) rows in
      let rows2 := filter (goes_right (ts_X d) s) rows in
      let p1 := strengthen q (targets d rows1) in
      let p2 := strengthen q (targets d rows2) in
      node_data post strengthen d (Some p1) (match i_n_dim (info c1) with Some _ => p1 | None => q end) rows1 c1 /\
      node_data post strengthen d (Some p2) (match i_n_dim (info c2) with Some _ => p2 | None => q end) rows2 c2
  end.

(** Posterior of a node in terms of its children's posteriors and the (common) prior. *)
Definition additive_node (k : nat) (prior : list R) (t : ctree) : Prop :=
  vsum (i_post (info t)) = (vsum prior + INR (i_n_data (info t)))%R /\ length (i_post (info t)) = k /\
  match t with
  | Leaf _ => True
  | Split _ _ _ _ c1 c2 => forall c, c < k ->
      nth c (i_post (info t)) 0%R = (nth c (i_post (info c1)) 0 + nth c (i_post (info c2)) 0 - nth c prior 0)%R
  end.
Fixpoint all_nodes {D S P} (Pr : tree D S P -> Prop) (t : tree D S P) : Prop :=
  Pr t /\ match t with Leaf _ => True | Split _ _ _ _ c1 c2 => all_nodes Pr c1 /\ all_nodes Pr c2 end.

(** One leaf value per query row: every entry of [out] is the value of the leaf that this row reaches
    when the splits are followed from the root, computed from this row alone. *)
Definition rowwise {S P O} (val : ninfo P -> O) (t : tree (pdesc string R) S P) (Xq : nat -> nat -> R) (m : nat)
    (out : list O) : Prop :=
  length out = m /\ forall q, q < m -> exists l,
    reaches (fun s => (Xq q (sd_dim s) < sd_val s)%R) (fun s => (Xq q (sd_dim s) >= sd_val s)%R) t l /\
    (forall l', reaches (fun s => (Xq q (sd_dim s) < sd_val s)%R) (fun s => (Xq q (sd_dim s) >= sd_val s)%R) t l' -> l' = l) /\
    nth_error out q = Some (val l).

(** ** Transformed problems and trees *)
(** Row [i] of the new training set is row [sigma i] of the old one. *)
Definition reorder {A Y} (sigma : nat -> nat) (d : tset A Y) : tset A Y :=
  mkSet (ts_n d) (ts_dim d) (fun i f => ts_X d (sigma i) f) (fun i => ts_y d (sigma i)) (ts_names d).
Definition reordering (n : nat) (sigma : nat -> nat) : Prop := Permutation (map sigma (seq 0 n)) (seq 0 n).

(** Feature [f] is replaced by [u f * x + v f]. *)
Definition scale_X (u v : nat -> R) (X : nat -> nat -> R) : nat -> nat -> R := fun i f => (u f * X i f + v f)%R.
Definition scale_features {Y} (u v : nat -> R) (d : tset R Y) : tset R Y :=
  mkSet (ts_n d) (ts_dim d) (scale_X u v (ts_X d)) (ts_y d) (ts_names d).
Fixpoint scale_thresholds {NM S P} (u v : nat -> R) (t : tree (pdesc NM R) S P) : tree (pdesc NM R) S P :=
  match t with
  | Leaf i => Leaf i
  | Split i s a b c1 c2 =>
      Split i (mkDesc (sd_dim s) (sd_name s) (u (sd_dim s) * sd_val s + v (sd_dim s))%R) a b
        (scale_thresholds u v c1) (scale_thresholds u v c2)
  end.

(** The target is replaced by [g] of it. *)
Definition map_target {A Y Y'} (g : Y -> Y') (d : tset A Y) : tset A Y' :=
  mkSet (ts_n d) (ts_dim d) (ts_X d) (fun i => g (ts_y d i)) (ts_names d).

(** Everything but priors, posteriors and evidences: splits, levels, sample counts. *)
Fixpoint skeleton {D S P} (t : tree D S P) : tree D unit unit :=
  let bare (i : ninfo P) := mkInfo None (i_level i) (i_n_data i) (i_n_dim i) tt in
  match t with
  | Leaf i => Leaf (bare i)
  | Split i s _ _ c1 c2 => Split (bare i) s tt tt (skeleton c1) (skeleton c2)
  end.

(** A permutation of the classes 0..k-1, applied to labels and to vectors indexed by class. *)
Definition class_perm (k : nat) (pi : nat -> nat) : Prop :=
  (forall c, c < k -> pi c < k) /\ (forall c c', c < k -> c' < k -> pi c = pi c' -> c = c').
Definition relabel (pi : nat -> nat) (y : R) : R := INR (pi (label y)).
Definition permuted (k : nat) (pi : nat -> nat) (p p' : list R) : Prop :=
  length p = k /\ length p' = k /\ forall c, c < k -> nth (pi c) p' 0%R = nth c p 0%R.

(** The target in another unit: y -> s*y + c, and the corresponding change of a normal-gamma prior. *)
Definition affine (s c y : R) : R := (s * y + c)%R.
Definition scale_ng (s c : R) (p : ng) : ng := mkNG (s * ng_mu p + c) (ng_kappa p) (ng_alpha p) (s ^ 2 * ng_beta p).

(** [p] is the sequence of splits (with side flags) that row [q] passes on its way to its leaf. *)
Definition row_passes {S P} (t : tree (pdesc string R) S P) (Xq : nat -> nat -> R) (q : nat)
    (p : list (pdesc string R * bool)) : Prop :=
  passes (fun s => (Xq q (sd_dim s) < sd_val s)%R) (fun s => (Xq q (sd_dim s) >= sd_val s)%R) t p.
(** How such a passed split is reported: (dimension, name, threshold, is the row's value >= threshold). *)
Definition path_steps (p : list (pdesc string R * bool)) : list (nat * string * R * bool) :=
  map (fun x => (sd_dim (fst x), sd_name (fst x), sd_val (fst x), snd x)) p.
