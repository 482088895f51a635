(** * ClfSpec: what a classification tree should compute, from counts and predictive probabilities only
    (no gamma functions, cumulative sums or index arrays). *)
From Verif Require Import Prelude Perp RealOps OptSpec.

(** Class number of a target value (targets are floats 0.0, 1.0, ...). *)
Definition label (y : R) : nat := Z.to_nat (Int_part y).

(** Number of targets of class [c]. *)
Definition count_label (c : nat) (ys : list R) : nat := length (filter (fun y => Nat.eqb (label y) c) ys).

(** Smoothed relative frequency of the class of [y] after having seen [before]. *)
Definition predictive (prior : list R) (before : list R) (y : R) : R :=
  (nth (label y) prior 0 + INR (count_label (label y) before)) / (vsum prior + INR (length before)).

(** Probability of a label sequence: product of one-step-ahead predictive probabilities. *)
Fixpoint seq_prob (prior : list R) (before ys : list R) : R :=
  match ys with
  | [] => 1
  | y :: t => predictive prior before y * seq_prob prior (before ++ [y]) t
  end.
Definition dm_prob (prior ys : list R) : R := seq_prob prior [] ys.

(** Pseudo-count vector after adding [w] times the class counts. *)
Definition add_counts (w : R) (prior ys : list R) : list R :=
  map (fun c => nth c prior 0 + w * INR (count_label c ys)) (seq 0 (length prior)).

Definition many {Y} (ys : list Y) : Prop := exists a b, In a ys /\ In b ys /\ a <> b.

Definition clf_tgt (pp delta : R) : tgt R (list R) R := {|
  t_prior := fun pa n d => match pa with Some p => p | None => repeat (INR (Nat.max 1 (n / 100))) d end;
  t_stop := fun lvl p ys => ln (1 - pp ^ (1 + lvl)) + ln (dm_prob p ys);
  t_cut := fun lvl p n m l r => ln (pp ^ (1 + lvl) / (INR m * INR n)) + ln (dm_prob p l) + ln (dm_prob p r);
  t_gt := Rgt;
  t_post := add_counts 1;
  t_child_prior := add_counts delta;
  t_many := many
|}.

(** Valid priors and targets for [k] classes. *)
Definition clf_pok (k : nat) (p : list R) : Prop := length p = k /\ Forall (fun a => 0 < a) p.
Definition clf_yok (k : nat) (y : R) : Prop := exists c, (c < k)%nat /\ y = INR c.
