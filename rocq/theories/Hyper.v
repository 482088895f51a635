(** * Hyper: hyperplane trees (base_hyperplane.py:22-160) and the objective of their optimizers
    (hyperplane_optimization.py:17-88), for arbitrary arithmetic. *)
From Coq Require Import Reals.
From Verif Require Import Prelude Tree Perp RealOps Clf Reg Api Importance.
Local Open Scope nat_scope.

(** Arithmetic on rows [W], optimizer arguments [C], normals [N], origins [O], projections [J] and
    cumulative distances [E].
    [g_unit c]         : hyperplane_optimization.py:36-44 (search space mapping, [nan_to_num], special case
                         of the zero vector, division by the norm)
    [g_proj x nrm]     : one entry of [X @ hyperplane_normal] (line 51)
    [g_argsort key n]  : [np.argsort] of [n] projections (line 52)
    [g_gap a b]        : [abs(b - a) > split_precision] (line 53)
    [g_mid p1 p2]      : [0.5 * (p1 + p2)] (line 73)
    [g_dist nrm o ps]  : [np.sum(np.abs(ps - np.dot(nrm, o)))] (lines 74-75)
    [g_zero]           : the initial [best_cumulative_distances] (line 29)
    [g_far a b]        : [a > b] on cumulative distances (line 81)
    [g_back nrm o x]   : [x @ nrm - np.dot(nrm, o) < 0]  (base_hyperplane.py:63-65, 124-125)
    [g_front nrm o x]  : [x @ nrm - np.dot(nrm, o) >= 0] (base_hyperplane.py:66, 126).
    Simplification: an entry of [X @ normal] depends only on the row and the normal (not on the other
    rows of the matrix, as blocked BLAS rounding might). *)
Record geo (W C N O J E : Type) := {
  g_unit : C -> N;
  g_proj : W -> N -> J;
  g_argsort : (nat -> J) -> nat -> list nat;
  g_gap : J -> J -> bool;
  g_mid : W -> W -> O;
  g_dist : N -> O -> list J -> E;
  g_zero : E;
  g_far : E -> E -> bool;
  g_back : N -> O -> W -> bool;
  g_front : N -> O -> W -> bool
}.
Arguments g_unit {W C N O J E}.
Arguments g_proj {W C N O J E}.
Arguments g_argsort {W C N O J E}.
Arguments g_gap {W C N O J E}.
Arguments g_mid {W C N O J E}.
Arguments g_dist {W C N O J E}.
Arguments g_zero {W C N O J E}.
Arguments g_far {W C N O J E}.
Arguments g_back {W C N O J E}.
Arguments g_front {W C N O J E}.

(** Split descriptor: [best_hyperplane_normal_], [best_hyperplane_origin_]. *)
Record plane (N O : Type) := mkPlane { p_normal : N; p_origin : O }.
Arguments mkPlane {N O}.
Arguments p_normal {N O}.
Arguments p_origin {N O}.

(** Mutable fields of [HyperplaneOptimizationFunction] (hyperplane_optimization.py:27-31). *)
Record hopt (N O S E : Type) := mkOpt {
  o_evals : nat; o_best : S; o_dist : E; o_plane : option (plane N O) }.
Arguments mkOpt {N O S E}.
Arguments o_evals {N O S E}.
Arguments o_best {N O S E}.
Arguments o_dist {N O S E}.
Arguments o_plane {N O S E}.

Section Hyper.
Context {W C N O J E Y P S : Type}.
Variable G : geo W C N O J E.
Variable L : lik Y P S.
(** [post delta prior ys] is [_compute_posterior(y, prior, delta)]. *)
Variable post : R -> P -> list Y -> P.
(** Row [i] of the training matrix, target of row [i], number of columns. *)
Variable X : nat -> W.
Variable y : nat -> Y.
Variable n_dim : nat.

Notation tree := (tree (plane N O) S P).
Notation hopt := (hopt N O S E).

(** The matrix and target a node is fitted on: rows [rows] of the training set, in this order. *)
Section Objective.
Variables (lvl : nat) (prior : P) (rows : list nat) (no_split : S).

(** hyperplane_optimization.py:26-31. *)
Definition opt_init : hopt := mkOpt 0 no_split (g_zero G) None.

(** hyperplane_optimization.py:33-88 [compute]; returns the new state and the value whose negative the
    method returns.  The [nth_error] misses are unreachable when [l_argmax] returns a valid position and
    [l_split] one score per position. *)
Definition opt_compute (st : hopt) (c : C) : hopt * S :=
  let st1 := mkOpt (1 + o_evals st) (o_best st) (o_dist st) (o_plane st) in
  let nrm := g_unit G c in
  let row k := nth k rows 0 in
  let projections := map (fun i => g_proj G (X i) nrm) rows in
  let sort_indices := g_argsort G (fun k => g_proj G (X (row k)) nrm) (length rows) in
  let split_indices := split_positions (g_gap G) projections in
  match split_indices with
  | [] => (st1, no_split)
  | _ =>
      let y_sorted := map (fun k => y (row k)) sort_indices in
      let log_p := l_split L lvl prior n_dim y_sorted split_indices in
      let i_max := l_argmax L log_p in
      match nth_error log_p i_max, nth_error split_indices i_max with
      | Some s, Some k =>
          if l_ge L s (o_best st1) then
            let p1 := X (row (nth (k - 1) sort_indices 0)) in
            let p2 := X (row (nth k sort_indices 0)) in
            let org := g_mid G p1 p2 in
            let dist := g_dist G nrm org projections in
            if (if l_gt L s (o_best st1) then true else g_far G dist (o_dist st1))
            then (mkOpt (o_evals st1) s dist (Some (mkPlane nrm org)), s)
            else (st1, s)
          else (st1, s)
      | _, _ => (st1, no_split)
      end
  end.

(** The state after an optimizer evaluated the candidates [cs]. *)
Definition opt_run (cs : list C) : hopt := fold_left (fun st c => fst (opt_compute st c)) cs opt_init.

(** An optimizer that chooses its next candidate from the values returned so far (latest first), or
    stops; all random draws are fixed. [steps] bounds the number of evaluations. *)
Fixpoint opt_adaptive (next : list S -> option C) (steps : nat) (st : hopt) (seen : list S) : hopt * list S :=
  match steps with
  | 0 => (st, seen)
  | Datatypes.S k =>
      match next seen with
      | None => (st, seen)
      | Some c => let r := opt_compute st c in opt_adaptive next k (fst r) (snd r :: seen)
      end
  end.
End Objective.

(** [cands path] are the candidates the optimizer evaluates at the node reached by [path] (true = front
    child) from the root; arbitrary, so any terminating optimizer is covered. *)
Variable cands : list bool -> list C.

(** base_hyperplane.py:22-121 [_fit].  [pa] is [self.prior].
    Simplification: [verbose] printing and the attribute [optimization_function] are omitted. *)
Fixpoint hfit (fuel lvl : nat) (path : list bool) (pa : option P) (rows : list nat) : res tree :=
  match fuel with
  | 0 => Err OutOfFuel
  | Datatypes.S fuel' =>
      let n_data := length rows in
      let prior := l_prior L pa n_data n_dim in
      let ys := map y rows in
      let no_split := l_no_split L lvl prior ys in
      let st := opt_run lvl prior rows no_split (cands path) in
      let inf := mkInfo pa lvl n_data (Some n_dim) (l_post L prior ys) in
      match o_plane st with
      | None => Ok (Leaf inf)
      | Some pl =>
          let rows1 := filter (fun i => g_back G (p_normal pl) (p_origin pl) (X i)) rows in
          let rows2 := filter (fun i => g_front G (p_normal pl) (p_origin pl) (X i)) rows in
          if (0 <? length rows1) && (0 <? length rows2) then
            let prior1 := post 0 prior (map y rows1) in
            let prior2 := post 0 prior (map y rows2) in
            let child (b : bool) (prior_c : P) (rows_c : list nat) : res tree :=
              let ys_c := map y rows_c in
              if (1 <? length rows_c) && l_many L ys_c
              then hfit fuel' (lvl + 1) (path ++ [b]) (Some prior_c) rows_c
              else Ok (Leaf (mkInfo (Some prior_c) (lvl + 1) (length rows_c) None (l_post L prior ys_c))) in
            let! c1 := child false prior1 rows1 in
            let! c2 := child true prior2 rows2 in
            Ok (Split inf pl no_split (o_best st) c1 c2)
          else Ok (Leaf inf)
      end
  end.

End Hyper.

(** A training set of [hs_n] rows. *)
Record hset (W Y : Type) := mkHSet { hs_n : nat; hs_dim : nat; hs_X : nat -> W; hs_y : nat -> Y }.
Arguments mkHSet {W Y}.
Arguments hs_n {W Y}.
Arguments hs_dim {W Y}.
Arguments hs_X {W Y}.
Arguments hs_y {W Y}.

(** base.py:68-74: the part of [fit] after validation. *)
Definition hyper_fit {W C N O J E Y P S} (G : geo W C N O J E) (L : lik Y P S) (post : R -> P -> list Y -> P)
    (same : ninfo P -> ninfo P -> bool) (do_prune : bool) (lvl : nat) (pa : option P)
    (cands : list bool -> list C) (d : hset W Y) : res (tree (plane N O) S P) :=
  let! t := hfit G L post (hs_X d) (hs_y d) (hs_dim d) cands (Datatypes.S (hs_n d)) lvl [] pa (seq 0 (hs_n d)) in
  if do_prune then prune same t else Ok t.

(** base_hyperplane.py:123-128 for query rows [Xq]. *)
Definition hgo1 {W C N O J E} (G : geo W C N O J E) (Xq : nat -> W) (pl : plane N O) (i : nat) : bool :=
  g_back G (p_normal pl) (p_origin pl) (Xq i).
Definition hgo2 {W C N O J E} (G : geo W C N O J E) (Xq : nat -> W) (pl : plane N O) (i : nat) : bool :=
  g_front G (p_normal pl) (p_origin pl) (Xq i).

(** ** Exact real arithmetic *)

Local Open Scope R_scope.

Definition dot (a b : list R) : R := vsum (map2 Rmult a b).
Definition norm (a : list R) : R := sqrt (dot a a).
(** hyperplane_optimization.py:40-44; [nan_to_num] does nothing on numbers. *)
Definition unit_vec (v : list R) : list R :=
  let v1 := if forallb (fun x => Reqb x 0) v then set_nth 0 1 v else v in
  map (fun x => x / norm v1) v1.

(** [pre] maps the argument of the objective to a vector: the identity, or the hypercube mapping
    (hyperplane_optimization.py:36-37, see Sphere.v). *)
Definition geo_R {C} (pre : C -> list R) (prec : R) (srt : (nat -> R) -> nat -> list nat)
    : geo (list R) C (list R) (list R) R R := {|
  g_unit := fun c => unit_vec (pre c);
  g_proj := fun x nrm => dot x nrm;
  g_argsort := srt;
  g_gap := fun a b => Rgtb (Rabs (b - a)) prec;
  g_mid := fun p1 p2 => map2 (fun a b => / 2 * (a + b)) p1 p2;
  g_dist := fun nrm org ps => vsum (map (fun p => Rabs (p - dot nrm org)) ps);
  g_zero := 0;
  g_far := Rgtb;
  g_back := fun nrm org x => Rltb (dot x nrm - dot nrm org) 0;
  g_front := fun nrm org x => Rgeb (dot x nrm - dot nrm org) 0
|}.

Definition hctree : Type := tree (plane (list R) (list R)) R (list R).
Definition hrtree : Type := tree (plane (list R) (list R)) R ng.

(** [HyperplaneClassificationTree(...).fit(X, y)] and [HyperplaneRegressionTree(...).fit(X, y)]. *)
Definition hclf_fit {C} (pre : C -> list R) (srt : (nat -> R) -> nat -> list nat) (cands : list bool -> list C)
    (h : hyper (list R)) (d : hset (list R) R) : res hctree :=
  hyper_fit (geo_R pre (h_prec h) srt) (clf_lik (h_pp h) (h_delta h)) clf_posterior clf_same (h_prune h) 0
    (h_prior h) cands d.
Definition hreg_fit {C} (pre : C -> list R) (srt : (nat -> R) -> nat -> list nat) (cands : list bool -> list C)
    (h : hyper ng) (d : hset (list R) R) : res hrtree :=
  hyper_fit (geo_R pre (h_prec h) srt) (reg_lik (h_pp h) (h_delta h)) reg_posterior reg_same (h_prune h) 0
    (h_prior h) cands d.

(** base_hyperplane.py:123-128 over the reals. *)
Definition behind (Xq : nat -> list R) (pl : plane (list R) (list R)) (i : nat) : bool :=
  Rltb (dot (Xq i) (p_normal pl) - dot (p_normal pl) (p_origin pl)) 0.
Definition before (Xq : nat -> list R) (pl : plane (list R) (list R)) (i : nat) : bool :=
  Rgeb (dot (Xq i) (p_normal pl) - dot (p_normal pl) (p_origin pl)) 0.

(** base.py:98-102, classification.py:43-46. *)
Definition hclf_predict (t : hctree) (Xq : nat -> list R) (m : nat) : list R :=
  predict_rows (behind Xq) (before Xq) (fun i => INR (clf_predict_leaf (i_post i))) t m 0.
Definition hreg_predict (t : hrtree) (Xq : nat -> list R) (m : nat) : list R :=
  predict_rows (behind Xq) (before Xq) (fun i => reg_predict_leaf (i_post i)) t m 0.
Definition hclf_predict_proba (t : hctree) (Xq : nat -> list R) (m : nat) : list (option (list R)) :=
  predict_rows (behind Xq) (before Xq) (fun i => Some (clf_posterior_mean (i_post i))) t m None.

(** base_hyperplane.py:143-156 [_update_feature_importance]. *)
Fixpoint hyper_importance {P} (t : tree (plane (list R) (list R)) R P) (fi : list R) : list R :=
  match t with
  | Leaf _ => fi
  | Split _ pl lp_no lp_best c1 c2 =>
      let log_p_gain := lp_best - lp_no in
      let fi1 := map2 Rplus fi (map (fun w => log_p_gain * Rabs w) (p_normal pl)) in
      hyper_importance c2 (hyper_importance c1 fi1)
  end.

(** base_hyperplane.py:134-141 [feature_importance] of a fitted tree. *)
Definition hyper_feature_importance {P} (t : tree (plane (list R) (list R)) R P) : res (list (option R)) :=
  match i_n_dim (info t) with
  | None => Err AttributeError
  | Some n_dim =>
      let fi := hyper_importance t (repeat 0 n_dim) in
      Ok (map (fun x => np_div x (vsum fi)) fi)
  end.
