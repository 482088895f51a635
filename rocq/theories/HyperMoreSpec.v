(** * HyperMoreSpec: vocabulary of the hyperplane versions of C08, C14, C15, C18, C50, C51 and C64. *)
From Coq Require Import Reals.
From Verif Require Import Prelude Tree RealOps Clf Reg Hyper Spec ClfSpec HyperSpec.
Local Open Scope nat_scope.

(** Posteriors of the children add up to that of the parent, the prior being counted once. *)
Definition hadditive_node (k : nat) (prior : list R) (t : hctree) : Prop :=
  vsum (i_post (info t)) = (vsum prior + INR (i_n_data (info t)))%R /\ length (i_post (info t)) = k /\
  match t with
  | Leaf _ => True
  | Split _ _ _ _ c1 c2 => forall c, c < k ->
      nth c (i_post (info t)) 0%R = (nth c (i_post (info c1)) 0 + nth c (i_post (info c2)) 0 - nth c prior 0)%R
  end.

(** The training set with the targets changed. *)
Definition hmap_target {W Y Y'} (f : Y -> Y') (d : hset W Y) : hset W Y' :=
  mkHSet (hs_n d) (hs_dim d) (hs_X d) (fun i => f (hs_y d i)).

(** Sum of the recorded gains of all splits. *)
Definition htotal_gain {P} (t : tree (plane (list R) (list R)) R P) : R := vsum (map hgain (splits t)).

(** Log prior odds of the splits of a tree against not splitting: a split at level [l] of [n] rows, which can be cut at [n - 1]
    places, has weight pp^(1+l) / ((n - 1) dim), not splitting there has weight 1 - pp^(1+l). *)
Fixpoint hlog_odds {S P} (pp : R) (d : hset (list R) R) (rows : list nat) (t : tree (plane (list R) (list R)) S P) : R :=
  match t with
  | Leaf _ => 0%R
  | Split i pl _ _ c1 c2 =>
      (ln (pp ^ (1 + i_level i) / (INR (length rows - 1) * INR (hs_dim d))) - ln (1 - pp ^ (1 + i_level i)) +
       hlog_odds pp d (filter (behind (hs_X d) pl) rows) c1 + hlog_odds pp d (filter (before (hs_X d) pl) rows) c2)%R
  end.
