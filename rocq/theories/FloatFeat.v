(** * FloatFeat: the perpendicular fit on IEEE 754 floating-point features.

    Feature matrices of dtype float32/float64 are used as they are (base.py:225-238), so comparisons,
    differences and the split value are floating-point operations.  Arithmetic is round-to-nearest-even
    in the format with [prec] bits of precision and largest exponent [emax] (53 and 1024 for float64),
    taken from the Flocq formalisation of IEEE 754 with one NaN.  NaN payloads do not matter here: the
    code only compares values.
    Simplification for float32: the product with the Python float 0.5 is taken in the same format
    (NumPy 2 semantics; under NumPy 1 the scalar product is computed in float64 first). *)
From Coq Require Import Reals.
From Flocq Require Import Core BinarySingleNaN Plus_error Mult_error.
From Verif Require Import Prelude Tree Perp.

Section Fmt.
Variables prec emax : Z.
Context (prec_gt_0_ : Prec_gt_0 prec) (prec_lt_emax_ : Prec_lt_emax prec emax).
Notation fl := (binary_float prec emax).

(** The constant 0.5. *)
Definition half_f : fl := Bldexp mode_NE Bone (-1).
(** base_perpendicular.py:146-149: [0.5 * (a + b)]. *)
Definition mid_f (a b : fl) : fl := Bmult mode_NE half_f (Bplus mode_NE a b).
(** base_perpendicular.py:116: [np.abs(b - a) > split_precision]. *)
Definition gap_f (p a b : fl) : bool := Bltb p (Babs (Bminus mode_NE b a)).

(** base_perpendicular.py:116, 146-149, 196-197 and np.argsort for float features.  Comparisons with
    NaN are false. *)
Definition feat_f (p : fl) (srt : (nat -> fl) -> nat -> list nat) : feat fl fl := {|
  f_lt := fun x v => Bltb x v;
  f_ge := fun x v => Bleb v x;
  f_mid := mid_f;
  f_gap := gap_f p;
  f_argsort := srt
|}.

(** The order np.argsort sorts by: NaN goes last. *)
Definition fleb (a b : fl) : bool := Bleb a b || is_nan b.
End Fmt.
Arguments half_f {prec emax prec_gt_0_ prec_lt_emax_}.
Arguments mid_f {prec emax prec_gt_0_ prec_lt_emax_}.
Arguments gap_f {prec emax prec_gt_0_ prec_lt_emax_}.
Arguments feat_f {prec emax prec_gt_0_ prec_lt_emax_}.
Arguments fleb {prec emax}.

(** float64. *)
Global Instance prec64_pos : Prec_gt_0 53 := eq_refl.
Global Instance prec64_lt : Prec_lt_emax 53 1024 := eq_refl.
Notation float64 := (binary_float 53 1024).
