(** * ImportanceSpec: log-evidence gains per feature, read off the list of splits. *)
From Verif Require Import Prelude Tree Perp RealOps Api Spec.
Local Open Scope nat_scope.

(** Increase of the marginal log-likelihood by a split, and its feature. *)
Definition gain {V} (s : pdesc string V * R * R) : R := let '(_, no, best) := s in (best - no)%R.
Definition feature {V} (s : pdesc string V * R * R) : nat := let '(d, _, _) := s in sd_dim d.
Definition total_gain {P} (t : tree (pdesc string R) R P) : R := vsum (map gain (splits t)).
Definition gain_on {P} (f : nat) (t : tree (pdesc string R) R P) : R :=
  vsum (map gain (filter (fun s => Nat.eqb (feature s) f) (splits t))).

(** [v] is the normalised gain vector of the tree: a distribution over the features, positive exactly on
    the features that are split on. *)
Definition is_importance {P} (n_dim : nat) (t : tree (pdesc string R) R P) (v : list R) : Prop :=
  length v = n_dim /\ vsum v = 1%R /\
  forall f, f < n_dim ->
    (0 <= nth f v 0)%R /\ ((0 < nth f v 0)%R <-> exists s, In s (splits t) /\ feature s = f) /\
    nth f v 0%R = (gain_on f t / total_gain t)%R.

(** [no_score] and [scores f] (one per candidate cut of feature [f], cutting the targets [ys f] at the
    positions [ks f]) are log prior weight plus log evidence [ev], for positive weights that sum to at most 1,
    and to 1 exactly if every feature has a candidate cut. *)
Definition sub_probability (ev : list R -> R) (n_dim : nat) (ks : nat -> list nat) (ys : nat -> list R)
    (no_score : R) (scores : nat -> list R) : Prop :=
  exists (w_no : R) (w : nat -> nat -> R),
    (0 < w_no)%R /\ no_score = (ln w_no + ev (ys 0%nat))%R /\
    (forall f, f < n_dim -> length (scores f) = length (ks f) /\
       forall j k, nth_error (ks f) j = Some k ->
         (0 < w f j)%R /\ nth_error (scores f) j = Some (ln (w f j) + ev (firstn k (ys f)) + ev (skipn k (ys f)))%R) /\
    let total := (w_no + vsum (map (fun f => vsum (map (w f) (seq 0%nat (length (ks f))))) (seq 0%nat n_dim)))%R in
    (total <= 1)%R /\ (total = 1%R <-> forall f, f < n_dim -> ks f <> []).
