(** * Prelude: exceptions as values and the NumPy primitives used by the code.

    Nothing in this file is specific to the decision trees: it fixes how Python
    exceptions and the handful of NumPy operations used in /repo are written in Gallina. *)
From Coq Require Export List Arith ZArith NArith Bool Lia.
Export ListNotations.

(** Python exceptions that the modelled code can raise.  [OutOfFuel] is not a Python
    exception: it marks exhausted recursion fuel and is proved unreachable. *)
Inductive exn :=
| ValueError | TypeError | IndexError | AssertionError | AttributeError
| OutOfFuel.

Inductive res (A : Type) := Ok (a : A) | Err (e : exn).
Arguments Ok {A} a.
Arguments Err {A} e.

Definition rbind {A B} (r : res A) (f : A -> res B) : res B :=
  match r with Ok a => f a | Err e => Err e end.
Notation "'let!' x := r 'in' k" := (rbind r (fun x => k))
  (at level 200, x name, r at level 100, k at level 200).

(** NumPy fancy indexing [a[idx]] for an array given by its accessor. *)
Definition gather {A} (a : nat -> A) (idx : list nat) : list A := map a idx.

(** NumPy fancy indexing [idx[pos]] of an integer array by an integer array. *)
Definition gather_idx (idx pos : list nat) : list nat := map (fun p => nth p idx 0) pos.

(** [np.where(mask)[0]]: the positions of the true entries, ascending. *)
Fixpoint where_from (k : nat) (mask : list bool) : list nat :=
  match mask with
  | [] => []
  | b :: m => if b then k :: where_from (S k) m else where_from (S k) m
  end.
Definition np_where (mask : list bool) : list nat := where_from 0 mask.

(** The mask [g(l[0],l[1]), g(l[1],l[2]), ...]; with [g a b := abs(b-a) > precision] this is
    [np.abs(np.diff(l)) > precision]. *)
Fixpoint adjacent {A} (g : A -> A -> bool) (l : list A) : list bool :=
  match l with
  | a :: ((b :: _) as t) => g a b :: adjacent g t
  | _ => []
  end.

(** [np.argmax(l)]: position of the first maximal element ([gt] is strict "greater"). *)
Fixpoint argmax_from {S} (gt : S -> S -> bool) (best : S) (ibest i : nat) (l : list S) : nat :=
  match l with
  | [] => ibest
  | s :: t => if gt s best then argmax_from gt s i (Datatypes.S i) t
              else argmax_from gt best ibest (Datatypes.S i) t
  end.
Definition argmax {S} (gt : S -> S -> bool) (l : list S) : nat :=
  match l with [] => 0 | s :: t => argmax_from gt s 0 1 t end.

(** [a[k] = v] (in-place assignment). *)
Fixpoint set_nth {A} (k : nat) (v : A) (l : list A) : list A :=
  match l, k with
  | [], _ => []
  | _ :: t, 0 => v :: t
  | h :: t, S k' => h :: set_nth k' v t
  end.

(** [np.isin(i, set)] for indices. *)
Definition mem (i : nat) (l : list nat) : bool := existsb (Nat.eqb i) l.

(** [flat.reshape(n, -1)] for a flat array: [n] rows of equal length, [ValueError] if the
    number of elements is not a multiple of [n]. *)
Fixpoint chunks {A} (n w : nat) (l : list A) : list (list A) :=
  match n with
  | 0 => []
  | S n' => firstn w l :: chunks n' w (skipn w l)
  end.
Definition reshape_rows {A} (n : nat) (l : list A) : res (list (list A)) :=
  match n with
  | 0 => Err ValueError
  | _ => if Nat.eqb (Nat.modulo (length l) n) 0
         then Ok (chunks n (Nat.div (length l) n) l) else Err ValueError
  end.

(** A stable insertion argsort, used to run the model: [leb a b] means a <= b. *)
Fixpoint insert_by {A} (leb : A -> A -> bool) (key : nat -> A) (i : nat) (l : list nat) : list nat :=
  match l with
  | [] => [i]
  | j :: t => if leb (key j) (key i) then j :: insert_by leb key i t else i :: l
  end.
Definition argsort_by {A} (leb : A -> A -> bool) (key : nat -> A) (n : nat) : list nat :=
  fold_left (fun acc i => insert_by leb key i acc) (seq 0 n) [].
