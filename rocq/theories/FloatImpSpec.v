(** * FloatImpSpec: the exact importance of the scores recorded in a float64 tree, and what the computed one has to satisfy. *)
From Coq Require Import Reals String.
From Flocq Require Import Core BinarySingleNaN.
From Verif Require Import Prelude Tree Perp RealOps Api Spec FloatFeat FloatReg FloatSum FloatClfSum.
Local Open Scope R_scope.

Section Spec.
Context {V P : Type}.
Notation tree := (tree (pdesc string V) float64 P).

(** A recorded split: its feature, and the exact difference of its two recorded scores. *)
Definition feature64 (s : pdesc string V * float64 * float64) : nat := sd_dim (fst (fst s)).
Definition gain64 (s : pdesc string V * float64 * float64) : R := B2R (snd s) - B2R (snd (fst s)).
(** Share of feature [f] in the recorded gains. *)
Definition share64 (t : tree) (f : nat) : R :=
  vsum (map gain64 (filter (fun s => Nat.eqb (feature64 s) f) (splits t))) / vsum (map gain64 (splits t)).

(** Every recorded score is finite, of magnitude at most 2^900. *)
Definition scores_finite (t : tree) : Prop := forall s, In s (splits t) ->
  is_finite (snd (fst s)) = true /\ is_finite (snd s) = true /\ Rabs (B2R (snd (fst s))) <= bpow radix2 900 /\ Rabs (B2R (snd s)) <= bpow radix2 900.

(** The computed importances [v]: finite, in [0,1], zero for unused features, each within a relative error of
    10 (splits + features + 1) units in the last place of the exact share (up to underflow), and summing to 1 up to that. *)
Definition importance64 (n_dim : nat) (t : tree) (v : list float64) : Prop :=
  let k := INR (List.length (splits t) + n_dim + 1) in
  List.length v = n_dim /\ Forall (fun a => is_finite a = true /\ 0 <= B2R a <= 1) v /\
  (forall f, (f < n_dim)%nat -> Rabs (B2R (nth f v f_zero) - share64 t f) <= 10 * k * u53 * share64 t f + bpow radix2 (-1075)) /\
  (forall f, (f < n_dim)%nat -> (forall s, In s (splits t) -> feature64 s <> f) -> B2R (nth f v f_zero) = 0) /\
  Rabs (vsum (map B2R v) - 1) <= 10 * k * u53 + INR n_dim * bpow radix2 (-1075).
End Spec.
