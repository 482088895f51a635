(** * Sphere: the search space mapping of hyperplane optimizers (utils.py:47-139), over the reals. *)
From Coq Require Import Reals.
From Verif Require Import Prelude RealOps Hyper.
Local Open Scope R_scope.

(** [u ** (1/k)] for [u >= 0], [k >= 1]. *)
Definition root_pow (u : R) (k : nat) : R := if Reqb u 0 then 0 else Rpower u (1 / INR k).

(** utils.py:85-93 and 126-134, one pass of either loop: the [k] coordinates set so far are scaled and two more are
    appended.  Simplification: the part of the array not yet set is left out. *)
Definition extend (k : nat) (u v : R) (x : list R) : list R :=
  let h := root_pow u k in
  let x' := map (fun a => a * h) x in
  let sqrt_rho := sqrt (Rmax 0 (1 - vsum (map (fun a => a ^ 2) x'))) in
  let phi := 2 * PI * v in
  x' ++ [sqrt_rho * cos phi; sqrt_rho * sin phi].

(** utils.py:67-134 for a one-dimensional array [U]: the point before the final division. *)
Definition sphere_raw (half : bool) (U : list R) : list R :=
  let n := (1 + length U)%nat in
  let at_ k := nth k U 0 in
  if Nat.even n then
    let phi := if half then PI * (at_ 0%nat - 1 / 2) else 2 * PI * at_ 0%nat in
    fold_left (fun x i => extend (2 * i)%nat (at_ (2 * i - 1)%nat) (at_ (2 * i)%nat) x)
              (seq 1 (n / 2 - 1)) [cos phi; sin phi]
  else if half then
    fold_left (fun x i => extend (2 * i - 1)%nat (at_ (2 * i - 2)%nat) (at_ (2 * i - 1)%nat) x)
              (seq 1 ((n + 1) / 2 - 1)) [1]
  else
    let phi := acos (2 * at_ 0%nat - 1) in
    let theta := 2 * PI * at_ 1%nat in
    fold_left (fun x i => extend (2 * i - 1)%nat (at_ (2 * i - 2)%nat) (at_ (2 * i - 1)%nat) x)
              (seq 2 ((n + 1) / 2 - 2)) [sin phi * cos theta; sin phi * sin theta; cos phi].

(** utils.py:47-139 [hypercube_to_hypersphere_surface] of a one-dimensional array.  Without coordinates the squeezed
    array has no axis and [np.linalg.norm(..., axis=-1)] raises an AxisError (a ValueError); with
    [half_hypersphere=False] the assertion at line 101 fails before.  Simplification: a two-dimensional argument, which
    the code base never passes, is left out. *)
Definition sphere (half : bool) (U : list R) : res (list R) :=
  if forallb (fun u => Rgeb u 0) U && forallb (fun u => Rleb u 1) U then
    match U with
    | [] => Err (if half then ValueError else AssertionError)
    | _ => let x := sphere_raw half U in Ok (map (fun a => a / norm x) x)
    end
  else Err AssertionError.
