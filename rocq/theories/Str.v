(** * Str: printing of trees ([__str__], [_str]; base_perpendicular.py:225-251, base_hyperplane.py:162-190).

    A Python string is the list of its Unicode code points. *)
From Coq Require Decimal DecimalString Ascii.
From Coq Require Import String.
From Verif Require Import Prelude Tree.

Definition text := list N.
(** ASCII literals. *)
Definition lit (s : String.string) : text := map Ascii.N_of_ascii (String.list_ascii_of_string s).
Definition NL : N := 10.
Definition SP : N := 32.
(** base_perpendicular.py:229, base_hyperplane.py:166. *)
Definition VERT_RIGHT : text := [0x251C%N].
Definition DOWN_RIGHT : text := [0x2514%N].
Definition BAR : text := [0x2502%N].
Definition GEQ : text := [0x2265%N].

(** ['{}'.format(n)] for a non-negative int. *)
Definition dec (n : nat) : text := lit (DecimalString.NilEmpty.string_of_uint (Nat.to_uint n)).

Section Str.
Context {D S P : Type}.
(** Everything the two tree types print differently, and the number formatting of Python and NumPy:
    [prefix d left]: text between the anchors and the body of a child of a split [d];
    [split_text d] : body of a split line;
    [pred_text p]  : ['{}'.format(self._predict_leaf())];
    [mean_text p]  : ['{}'.format(self._compute_posterior_mean())], [None] for regression trees. *)
Variable prefix : D -> bool -> text.
Variable split_text : D -> text.
Variable pred_text : P -> text.
Variable mean_text : option (P -> text).

(** base_perpendicular.py:237-240, base_hyperplane.py:174-177. *)
Definition leaf_text (i : ninfo P) : text :=
  lit "y="%string ++ pred_text (i_post i) ++ lit ", n="%string ++ dec (i_n_data i) ++
  match mean_text with Some f => lit ", p(y)="%string ++ f (i_post i) | None => [] end.

(** base_perpendicular.py:232, base_hyperplane.py:169: [''.join(' ' + a for a in anchor)]. *)
Definition anchor_str (anchor : list text) : text := concat (map (fun a => SP :: a) anchor).

(** base_perpendicular.py:245-249, base_hyperplane.py:183-188: anchors of a child.
    [left] is [is_left_child]; [None] (the root) is falsy. *)
Definition child_anchor (anchor : list text) (left : option bool) (end_ : text) : list text :=
  match anchor with
  | [] => [end_]
  | _ => removelast anchor ++ [match left with Some true => BAR | _ => [SP; SP] end; end_]
  end.

(** base_perpendicular.py:231-251, base_hyperplane.py:168-190 [_str]; [parent] is the parent's
    descriptor and [is_left_child] / [is_back_child]. *)
Fixpoint str_node (t : tree D S P) (anchor : list text) (parent : option (D * bool)) : text :=
  match parent with Some (d, is_left) => anchor_str anchor ++ prefix d is_left | None => [] end ++
  match t with
  | Leaf i => leaf_text i
  | Split _ d _ _ c1 c2 =>
      split_text d ++
      [NL] ++ str_node c1 (child_anchor anchor (option_map snd parent) VERT_RIGHT) (Some (d, true)) ++
      [NL] ++ str_node c2 (child_anchor anchor (option_map snd parent) DOWN_RIGHT) (Some (d, false))
  end.

(** base_perpendicular.py:225-229, base_hyperplane.py:162-166 [__str__]; [None] is a model without
    [posterior_]. *)
Definition str_model (m : option (tree D S P)) : text :=
  match m with None => lit "Unfitted model"%string | Some t => str_node t [] None end.
End Str.

(** base_perpendicular.py:235 and 242; [val], [name] format the threshold and the feature name. *)
Definition perp_prefix {D} (val : D -> text) (d : D) (left : bool) : text :=
  [SP] ++ (if left then lit "<"%string else GEQ) ++ val d ++ lit ": "%string.
Definition perp_split {D} (name val : D -> text) (d : D) : text := name d ++ lit "="%string ++ val d.
(** base_hyperplane.py:172 (['{:5s}'] pads to five characters) and 179. *)
Definition hyper_prefix {D} (d : D) (left : bool) : text := if left then lit " back : "%string else lit " front: "%string.
Definition hyper_split {D} (origin normal : D -> text) (d : D) : text :=
  lit "HP(origin="%string ++ origin d ++ lit ", normal="%string ++ normal d ++ lit ")"%string.
