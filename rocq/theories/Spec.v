(** * Spec: vocabulary of the property statements, independent of the model's algorithms.

    Only the tree data type and the per-split comparisons are used here. *)
From Verif Require Import Prelude Tree.

Section Spec.
Context {D S P : Type}.
Notation tree := (tree D S P).

(** [reaches left right t i]: following the splits of [t] from the root - to child 1 if the query is
    [left] of the split, to child 2 if it is [right] of it - ends in a leaf with attributes [i]. *)
Inductive reaches (left right : D -> Prop) : tree -> ninfo P -> Prop :=
| reaches_leaf i : reaches left right (Leaf i) i
| reaches_left i d a b c1 c2 l : left d -> reaches left right c1 l ->
    reaches left right (Split i d a b c1 c2) l
| reaches_right i d a b c1 c2 l : right d -> reaches left right c2 l ->
    reaches left right (Split i d a b c1 c2) l.

(** [passes left right t path]: the sequence of splits passed, each with the flag "went to child 2". *)
Inductive passes (left right : D -> Prop) : tree -> list (D * bool) -> Prop :=
| passes_leaf i : passes left right (Leaf i) []
| passes_left i d a b c1 c2 p : left d -> passes left right c1 p ->
    passes left right (Split i d a b c1 c2) ((d, false) :: p)
| passes_right i d a b c1 c2 p : right d -> passes left right c2 p ->
    passes left right (Split i d a b c1 c2) ((d, true) :: p).

(** [nodes_ok left right Pr rows t]: the property [Pr rows_n n] holds for every node [n] of [t], where
    [rows_n] are those of [rows] that are routed through node [n]. *)
Fixpoint nodes_ok (left right : D -> nat -> bool) (Pr : list nat -> tree -> Prop)
    (rows : list nat) (t : tree) : Prop :=
  Pr rows t /\
  match t with
  | Leaf _ => True
  | Split _ d _ _ c1 c2 =>
      nodes_ok left right Pr (filter (left d) rows) c1 /\
      nodes_ok left right Pr (filter (right d) rows) c2
  end.

(** Number of splits on the longest path to a leaf; number of leaves; list of leaves. *)
Fixpoint height (t : tree) : nat :=
  match t with Leaf _ => 0 | Split _ _ _ _ c1 c2 => 1 + Nat.max (height c1) (height c2) end.
Fixpoint leaves (t : tree) : list (ninfo P) :=
  match t with Leaf i => [i] | Split _ _ _ _ c1 c2 => leaves c1 ++ leaves c2 end.

(** All splits of a tree: descriptor, no-split score, split score. *)
Fixpoint splits (t : tree) : list (D * S * S) :=
  match t with
  | Leaf _ => []
  | Split _ d a b c1 c2 => (d, a, b) :: splits c1 ++ splits c2
  end.

(** All node attributes of a tree. *)
Fixpoint all_infos (t : tree) : list (ninfo P) :=
  match t with
  | Leaf i => [i]
  | Split i _ _ _ c1 c2 => i :: all_infos c1 ++ all_infos c2
  end.

(** Every level is one more than the parent's. *)
Fixpoint levels_ok (lvl : nat) (t : tree) : Prop :=
  i_level (info t) = lvl /\
  match t with
  | Leaf _ => True
  | Split _ _ _ _ c1 c2 => levels_ok (lvl + 1) c1 /\ levels_ok (lvl + 1) c2
  end.

(** Both children hold at least one sample and together all samples of the parent. *)
Fixpoint counts_ok (t : tree) : Prop :=
  match t with
  | Leaf _ => True
  | Split i _ _ _ c1 c2 =>
      1 <= i_n_data (info c1) /\ 1 <= i_n_data (info c2) /\
      i_n_data (info c1) + i_n_data (info c2) = i_n_data i /\
      counts_ok c1 /\ counts_ok c2
  end.

(** ** Pruning *)
Section Prune.
Variable same : ninfo P -> ninfo P -> bool.   (* two leaves with equal predictions *)

(** One bottom-up pass that collapses splits into two leaves of equal prediction. *)
Fixpoint prune_bu (t : tree) : tree :=
  match t with
  | Leaf _ => t
  | Split i d a b c1 c2 =>
      match prune_bu c1, prune_bu c2 with
      | Leaf i1, Leaf i2 => if same i1 i2 then Leaf i else Split i d a b (Leaf i1) (Leaf i2)
      | c1', c2' => Split i d a b c1' c2'
      end
  end.

(** No split with two leaf children of equal prediction. *)
Fixpoint irreducible (t : tree) : Prop :=
  match t with
  | Leaf _ => True
  | Split _ _ _ _ c1 c2 =>
      (forall i1 i2, c1 = Leaf i1 -> c2 = Leaf i2 -> same i1 i2 = false) /\
      irreducible c1 /\ irreducible c2
  end.

End Prune.

(** [t'] arises from [t] by turning some splits into leaves, keeping all other data. *)
Inductive pruned_of : tree -> tree -> Prop :=
| pruned_same i : pruned_of (Leaf i) (Leaf i)
| pruned_collapse i d a b c1 c2 : pruned_of (Split i d a b c1 c2) (Leaf i)
| pruned_split i d a b c1 c2 c1' c2' : pruned_of c1 c1' -> pruned_of c2 c2' ->
    pruned_of (Split i d a b c1 c2) (Split i d a b c1' c2').

End Spec.

(** Path of a query that goes to child 2 at the splits where [right] holds. *)
Fixpoint path_of {D S P} (right : D -> bool) (t : tree D S P) : list bool :=
  match t with
  | Leaf _ => []
  | Split _ d _ _ c1 c2 => if right d then true :: path_of right c2 else false :: path_of right c1
  end.

Fixpoint path_eqb (p q : list bool) : bool :=
  match p, q with
  | [], [] => true
  | a :: p', b :: q' => Bool.eqb a b && path_eqb p' q'
  | _, _ => false
  end.

(** Rows (with their own comparisons [rowright d j]) that end in the same leaf as the query. *)
Definition same_leaf {D S P} (right : D -> bool) (rowright : D -> nat -> bool) (t : tree D S P)
    (rows : list nat) : list nat :=
  filter (fun j => path_eqb (path_of (fun d => rowright d j) t) (path_of right t)) rows.
