(** * StrSpec: what a printed tree should look like. *)
From Coq Require Import String.
From Verif Require Import Prelude Tree Str.

(** The lines of a text. *)
Fixpoint lines (s : text) : list text :=
  match s with
  | [] => [[]]
  | c :: r => if N.eqb c NL then [] :: lines r
              else match lines r with l :: ls => (c :: l) :: ls | [] => [[c]] end
  end.
Definition one_line (s : text) : Prop := ~ In NL s.

Section Spec.
Context {D S P : Type}.
(** All nodes in depth-first order with their position: the turns from the root ([true] = first child)
    and the split of the parent. *)
Fixpoint dfs (t : tree D S P) (turns : list bool) (parent : option D) : list (list bool * option D * tree D S P) :=
  (turns, parent, t) ::
  match t with
  | Leaf _ => []
  | Split _ d _ _ c1 c2 => dfs c1 (turns ++ [true]) (Some d) ++ dfs c2 (turns ++ [false]) (Some d)
  end.

(** The splits of a tree. *)
Fixpoint descs (t : tree D S P) : list D :=
  match t with Leaf _ => [] | Split _ d _ _ c1 c2 => d :: descs c1 ++ descs c2 end.

(** Tree drawing: one column for each turn; a bar for an ancestor that still has a second child to come,
    a blank otherwise, and a corner for the node itself. *)
Fixpoint drawing (turns : list bool) : text :=
  match turns with
  | [] => []
  | [b] => SP :: (if b then VERT_RIGHT else DOWN_RIGHT)
  | b :: r => (SP :: (if b then BAR else [SP; SP])) ++ drawing r
  end.

(** The line of one node. *)
Definition line_of (prefix : D -> bool -> text) (split_text : D -> text) (leaf_body : ninfo P -> text)
    (x : list bool * option D * tree D S P) : text :=
  let '(turns, parent, t) := x in
  drawing turns ++
  match parent with Some d => prefix d (last turns false) | None => [] end ++
  match t with Leaf i => leaf_body i | Split _ d _ _ _ _ => split_text d end.
End Spec.

(** Body of a leaf line: prediction, sample count and, for classification, class probabilities. *)
Definition leaf_line {P} (pred_text : P -> text) (mean_text : option (P -> text)) (i : ninfo P) : text :=
  lit "y="%string ++ pred_text (i_post i) ++ lit ", n="%string ++ dec (i_n_data i) ++
  match mean_text with Some f => lit ", p(y)="%string ++ f (i_post i) | None => [] end.
