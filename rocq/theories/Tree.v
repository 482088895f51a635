(** * Tree: fitted trees and the methods of base.py that work on them.

    A fitted Python tree object is modelled by an inductive tree.  [D] is the split
    descriptor (perpendicular: dimension, name, value; hyperplane: normal, origin), [S] the type of
    log-evidence scores, [P] the type of priors/posteriors. *)
From Verif Require Import Prelude.

(** Attributes every node carries.
    [i_prior]: constructor argument [prior] (base.py:20), [None] for Python's None;
    [i_level]: base.py:26; [i_n_data]: [n_data_]; [i_n_dim]: [n_dim_], [None] if the attribute does
    not exist (children that are not fitted themselves only get [posterior_] and [n_data_],
    base_perpendicular.py:173-174, base_hyperplane.py:109-110); [i_post]: [posterior_]. *)
Record ninfo (P : Type) := mkInfo {
  i_prior : option P;
  i_level : nat;
  i_n_data : nat;
  i_n_dim : option nat;
  i_post : P
}.
Arguments mkInfo {P}.
Arguments i_prior {P}.
Arguments i_level {P}.
Arguments i_n_data {P}.
Arguments i_n_dim {P}.
Arguments i_post {P}.

(** A leaf has [split_value_ is None] (base_perpendicular.py:201-203) or
    [best_hyperplane_normal_ is None] (base_hyperplane.py:130-132).
    A split stores its descriptor, [log_p_data_no_split_], [best_log_p_data_split_] and children. *)
Inductive tree (D S P : Type) :=
| Leaf (i : ninfo P)
| Split (i : ninfo P) (d : D) (lp_no lp_best : S) (c1 c2 : tree D S P).
Arguments Leaf {D S P}.
Arguments Split {D S P}.

Section Methods.
Context {D S P : Type}.
Notation tree := (tree D S P).

Definition info (t : tree) : ninfo P :=
  match t with Leaf i => i | Split i _ _ _ _ _ => i end.

(** base_perpendicular.py:201-203, base_hyperplane.py:130-132 ([is_leaf]; the
    [_ensure_is_fitted] inside always passes on nodes of a fitted tree). *)
Definition is_leaf (t : tree) : bool :=
  match t with Leaf _ => true | Split _ _ _ _ _ _ => false end.

(** base.py:272-280 [_update_depth]. *)
Fixpoint update_depth (t : tree) (depth : nat) : nat :=
  match t with
  | Leaf i => Nat.max depth (i_level i)
  | Split _ _ _ _ c1 c2 => update_depth c2 (update_depth c1 depth)
  end.
(** base.py:250-259 [get_depth]. *)
Definition get_depth (t : tree) : nat := update_depth t 0.

(** base.py:282-290 [_update_n_leaves]. *)
Fixpoint update_n_leaves (t : tree) (n : nat) : nat :=
  match t with
  | Leaf _ => n + 1
  | Split _ _ _ _ c1 c2 => update_n_leaves c2 (update_n_leaves c1 n)
  end.
(** base.py:261-270 [get_n_leaves]. *)
Definition get_n_leaves (t : tree) : nat := update_n_leaves t 0.

(** base.py:125-145 [_predict]: the array [y] is updated in place at the global row numbers
    [indices].  [go1 d i] / [go2 d i] are the two (independent) comparisons of
    [_compute_child1_and_child2_indices] for row [i] of the query matrix
    (base_perpendicular.py:191-199, base_hyperplane.py:123-128). [val] is the leaf value:
    [_predict_leaf], [_compute_posterior_mean] or [_get_raw_leaf_data_internal]. *)
Fixpoint predict_into {O} (go1 go2 : D -> nat -> bool) (val : ninfo P -> O)
    (t : tree) (indices : list nat) (y : list O) : list O :=
  match t with
  | Leaf i => fold_left (fun acc k => set_nth k (val i) acc) indices y
  | Split _ d _ _ c1 c2 =>
      let indices1 := np_where (map (go1 d) indices) in
      let indices2 := np_where (map (go2 d) indices) in
      let y1 := if Nat.ltb 0 (length indices1)
                then predict_into go1 go2 val c1 (gather_idx indices indices1) y else y in
      if Nat.ltb 0 (length indices2)
      then predict_into go1 go2 val c2 (gather_idx indices indices2) y1 else y1
  end.

(** base.py:98-102 (body of [predict]; with other initial values also base.py:189-193 and
    classification.py:43-46): rows [0..n-1], result array pre-filled with [init]. *)
Definition predict_rows {O} (go1 go2 : D -> nat -> bool) (val : ninfo P -> O)
    (t : tree) (n : nat) (init : O) : list O :=
  predict_into go1 go2 val t (seq 0 n) (repeat init n).

(** base.py:147-165 [_prune].  [same i1 i2] is
    [child1_._predict_leaf() == child2_._predict_leaf()].  Collapsing a node
    ([_erase_split_info_base], [_erase_split_info]) keeps its other attributes. *)
Fixpoint prune_fuel (same : ninfo P -> ninfo P -> bool) (fuel : nat) (t : tree) : res tree :=
  match fuel with
  | 0 => Err OutOfFuel
  | Datatypes.S fuel' =>
      match t with
      | Leaf _ => Ok t
      | Split i d a b c1 c2 =>
          let depth_start := get_depth t in
          let n_leaves_start := get_n_leaves t in
          let! t' :=
            (match c1, c2 with
             | Leaf i1, Leaf i2 => if same i1 i2 then Ok (Leaf i) else Ok t
             | _, _ =>
                 let! c1' := prune_fuel same fuel' c1 in
                 let! c2' := prune_fuel same fuel' c2 in
                 Ok (Split i d a b c1' c2')
             end) in
          if negb (Nat.eqb depth_start (get_depth t')) ||
             negb (Nat.eqb n_leaves_start (get_n_leaves t'))
          then prune_fuel same fuel' t'
          else Ok t'
      end
  end.

(** Number of nodes: a sufficient amount of fuel for [_prune] (see PruneProofs.v). *)
Fixpoint size (t : tree) : nat :=
  match t with Leaf _ => 1 | Split _ _ _ _ c1 c2 => 1 + size c1 + size c2 end.

Definition prune (same : ninfo P -> ninfo P -> bool) (t : tree) : res tree :=
  prune_fuel same (size t) t.

(** base_perpendicular.py:45-70 [_update_prediction_paths].  Python path lists are shared
    by reference: [heap] holds the list objects, [refs] says which object each position of the
    argument [paths] denotes ([paths1 = [paths[i] for i in indices1]] only copies references).
    Note that the children receive the *local* positions [indices1] as row numbers. *)
Definition append_at {A} (k : nat) (s : A) (heap : list (list A)) : list (list A) :=
  set_nth k (nth k heap [] ++ [s]) heap.

Fixpoint update_paths {St} (go1 go2 : D -> nat -> bool) (step : D -> bool -> St)
    (t : tree) (indices : list nat) (refs : list nat) (heap : list (list St)) : list (list St) :=
  match t with
  | Leaf _ => heap
  | Split _ d _ _ c1 c2 =>
      let indices1 := np_where (map (go1 d) indices) in
      let indices2 := np_where (map (go2 d) indices) in
      let refs1 := gather_idx refs indices1 in
      let refs2 := gather_idx refs indices2 in
      let h1 := fold_left (fun h r => append_at r (step d false) h) refs1 heap in
      let h2 := fold_left (fun h r => append_at r (step d true) h) refs2 h1 in
      let h3 := if Nat.ltb 0 (length indices1) && negb (is_leaf c1)
                then update_paths go1 go2 step c1 indices1 refs1 h2 else h2 in
      if Nat.ltb 0 (length indices2) && negb (is_leaf c2)
      then update_paths go1 go2 step c2 indices2 refs2 h3 else h3
  end.

(** base_perpendicular.py:37-43 (body of [prediction_paths]). *)
Definition prediction_paths {St} (go1 go2 : D -> nat -> bool) (step : D -> bool -> St)
    (t : tree) (n : nat) : list (list St) :=
  update_paths go1 go2 step t (seq 0 n) (seq 0 n) (repeat [] n).

End Methods.
