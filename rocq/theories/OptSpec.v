(** * OptSpec: declarative description of the optimal perpendicular tree.

    Independent of index matrices, loops, argsort, argmax and cumulative sums: a node is given by
    the list of its training rows only. *)
From Verif Require Import Prelude Tree Perp Spec.

(** Target side of the specification (prior handling, evidence, posterior).
    [t_stop level prior ys]: value of not splitting;
    [t_cut level prior n_dim n_cuts ys1 ys2]: value of splitting into [ys1] and [ys2], when the
    dimension has [n_cuts] admissible cuts. *)
Record tgt (Y P S : Type) := {
  t_prior : option P -> nat -> nat -> P;
  t_stop : nat -> P -> list Y -> S;
  t_cut : nat -> P -> nat -> nat -> list Y -> list Y -> S;
  t_gt : S -> S -> Prop;
  t_post : P -> list Y -> P;
  t_child_prior : P -> list Y -> P;
  t_many : list Y -> Prop
}.
Arguments t_prior {Y P S}.
Arguments t_stop {Y P S}.
Arguments t_cut {Y P S}.
Arguments t_gt {Y P S}.
Arguments t_post {Y P S}.
Arguments t_child_prior {Y P S}.
Arguments t_many {Y P S}.

Section Opt.
Context {A V Y P S NM : Type}.
Variable leb : A -> A -> bool.            (* total order of feature values *)
Variable gap : A -> A -> bool.            (* further apart than the split precision *)
Variable mid : A -> A -> V.               (* threshold between two values *)
Variable T : tgt Y P S.
Variable X : nat -> nat -> A.
Variable y : nat -> Y.
Variable names : list NM.
Variable n_dim : nat.
Notation tree := (tree (pdesc NM V) S P).

Definition value_of (d : nat) (rows : list nat) (a : A) : Prop := exists i, In i rows /\ X i d = a.

(** [a < b] are neighbouring values of feature [d] among the rows, and far enough apart. *)
Definition is_cut (d : nat) (rows : list nat) (a b : A) : Prop :=
  value_of d rows a /\ value_of d rows b /\ leb b a = false /\ gap a b = true /\
  forall i, In i rows -> leb (X i d) a = true \/ leb b (X i d) = true.

Definition n_cuts (d : nat) (rows : list nat) (m : nat) : Prop :=
  exists cs, NoDup cs /\ length cs = m /\ forall a b, In (a, b) cs <-> is_cut d rows a b.

Definition left_rows (d : nat) (a : A) (rows : list nat) : list nat :=
  filter (fun i => leb (X i d) a) rows.
Definition right_rows (d : nat) (a : A) (rows : list nat) : list nat :=
  filter (fun i => negb (leb (X i d) a)) rows.

(** [s] is the value of splitting the rows on feature [d] between the neighbouring values a, b. *)
Definition cand (lvl : nat) (prior : P) (rows : list nat) (d : nat) (a b : A) (s : S) : Prop :=
  d < n_dim /\ is_cut d rows a b /\ exists m, n_cuts d rows m /\
  s = t_cut T lvl prior n_dim m (map y (left_rows d a rows)) (map y (right_rows d a rows)).

Definition node_info (lvl : nat) (pa : option P) (prior : P) (rows : list nat) : ninfo P :=
  mkInfo pa lvl (length rows) (Some n_dim) (t_post T prior (map y rows)).

Inductive opt : nat -> option P -> list nat -> tree -> Prop :=
| opt_leaf lvl pa rows prior :
    prior = t_prior T pa (length rows) n_dim ->
    (forall d a b s, cand lvl prior rows d a b s -> ~ t_gt T s (t_stop T lvl prior (map y rows))) ->
    opt lvl pa rows (Leaf (node_info lvl pa prior rows))
| opt_split lvl pa rows prior d a b s nm c1 c2 :
    prior = t_prior T pa (length rows) n_dim ->
    cand lvl prior rows d a b s ->
    t_gt T s (t_stop T lvl prior (map y rows)) ->
    (forall d' a' b' s', cand lvl prior rows d' a' b' s' ->
       ~ t_gt T s' s /\ (~ t_gt T s s' -> d < d' \/ d = d' /\ leb a a' = true)) ->
    nth_error names d = Some nm ->
    opt_child lvl prior (left_rows d a rows) c1 ->
    opt_child lvl prior (right_rows d a rows) c2 ->
    opt lvl pa rows (Split (node_info lvl pa prior rows) (mkDesc d nm (mid a b))
                           (t_stop T lvl prior (map y rows)) s c1 c2)
(** A child with a single row or with equal targets is not fitted any further; its posterior is
    computed from its parent's prior and it has no [n_dim_]. *)
with opt_child : nat -> P -> list nat -> tree -> Prop :=
| opt_child_fit lvl prior rows t :
    1 < length rows -> t_many T (map y rows) ->
    opt (lvl + 1) (Some (t_child_prior T prior (map y rows))) rows t ->
    opt_child lvl prior rows t
| opt_child_leaf lvl prior rows :
    length rows <= 1 \/ ~ t_many T (map y rows) ->
    opt_child lvl prior rows
      (Leaf (mkInfo (Some (t_child_prior T prior (map y rows))) (lvl + 1) (length rows) None
               (t_post T prior (map y rows)))).

Scheme opt_mind := Induction for opt Sort Prop
  with opt_child_mind := Induction for opt_child Sort Prop.
Combined Scheme opt_mutind from opt_mind, opt_child_mind.

End Opt.
