(** * SparseSpec: the dense matrix a compressed matrix stands for. *)
From Coq Require Import Reals.
From Verif Require Import Prelude Sparse.
Local Open Scope nat_scope.

(** Slot [k] of the arrays of [c] belongs to lane [i]. *)
Definition in_lane {A} (c : compressed A) (i k : nat) : bool :=
  (nth i (k_indptr c) 0 <=? k) && (k <? nth (1 + i) (k_indptr c) 0).

(** Values stored for major index [i] and minor index [j], in storage order. *)
Definition stored_at {A} (zero : A) (c : compressed A) (i j : nat) : list A :=
  map (fun k => nth k (k_data c) zero)
      (filter (fun k => in_lane c i k && Nat.eqb (nth k (k_indices c) 0) j) (seq 0 (length (k_data c)))).

Definition stored {A} (zero : A) (M : smat A) (i j : nat) : list A :=
  match M with Csr c => stored_at zero c i j | Csc c => stored_at zero c j i end.

(** Entry (i, j) of the matrix: the sum of what is stored there, zero if nothing is. *)
Definition entry {A} (zero : A) (add : A -> A -> A) (M : smat A) (i j : nat) : A :=
  fold_left add (stored zero M i j) zero.

(** Scalar indexing adds up the values stored at a position of [M] like [toarray] does.  True of exact
    arithmetic; of float64 if no position is stored eight or more times (see [total] in Sparse.v). *)
Definition adds_up {A} (zero : A) (add : A -> A -> A) (total : list A -> A) (M : smat A) : Prop :=
  forall i j, total (stored zero M i j) = entry zero add M i j.

(** Row [i] of a real matrix. *)
Definition dense_row (M : smat R) (i : nat) : list R := map (entry 0%R Rplus M i) (seq 0 (s_cols M)).

(** An argsort of [n] keys reads only these. *)
Definition reads_keys {A} (srt : (nat -> A) -> nat -> list nat) : Prop :=
  forall f g n, (forall i, i < n -> f i = g i) -> srt f n = srt g n.
