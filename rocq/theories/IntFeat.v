(** * IntFeat: integer feature matrices and integer targets.

    Arrays of dtype int8..int64, uint8..uint64 are used as they are (base.py:225-238), so sums,
    differences and squares of their entries wrap around. *)
From Verif Require Import Prelude Tree Perp Gamma RealOps Reg.
Local Open Scope Z_scope.

(** A NumPy integer type. *)
Record ity := mkIty { it_bits : Z; it_signed : bool }.
Definition int8 := mkIty 8 true.     Definition uint8 := mkIty 8 false.
Definition int16 := mkIty 16 true.   Definition uint16 := mkIty 16 false.
Definition int32 := mkIty 32 true.   Definition uint32 := mkIty 32 false.
Definition int64 := mkIty 64 true.   Definition uint64 := mkIty 64 false.

Definition i_lo (t : ity) : Z := if it_signed t then - 2 ^ (it_bits t - 1) else 0.
Definition i_hi (t : ity) : Z := if it_signed t then 2 ^ (it_bits t - 1) else 2 ^ it_bits t.   (* exclusive *)
(** Result of an arithmetic operation with exact value [x]. *)
Definition wrap (t : ity) (x : Z) : Z := i_lo t + (x - i_lo t) mod 2 ^ it_bits t.

(** base_perpendicular.py:116: [np.abs(np.diff(x))], both with wrap-around. *)
Definition absdiff_i (t : ity) (a b : Z) : Z := wrap t (Z.abs (wrap t (b - a))).

(** base_perpendicular.py:116, 146-149, 196-197 for integer features.  [X[i] + X[j]] wraps around; the
    product with 0.5 and the comparisons are in float64 and exact for all types up to 32 bits, and for
    64-bit values below 2^52 in size (larger 64-bit values, which float64 rounds, are not modelled).
    The split value [0.5 * s] is represented by [s]. *)
Definition feat_i (t : ity) (prec : R) (srt : (nat -> Z) -> nat -> list nat) : feat Z Z := {|
  f_lt := fun x s => 2 * x <? s;
  f_ge := fun x s => s <=? 2 * x;
  f_mid := fun a b => wrap t (a + b);
  f_gap := fun a b => Rgtb (IZR (absdiff_i t a b)) prec;
  f_argsort := srt
|}.

(** ** Integer regression targets (regression.py:29-104)

    [y ** 2] keeps the type of [y] and wraps around in it; [sum] and [cumsum] accumulate in 64 bits
    with the same signedness; products and squares of these 64-bit numbers wrap around in 64 bits.
    Simplification: [delta] is a float when it is not the literal 1; under NumPy 1.x some unsigned
    64-bit operations with Python integers are float64 instead of wrapping. *)
Section IReg.
Variable t : ity.
Definition acc : ity := mkIty 64 (it_signed t).
Definition zsum' (l : list Z) : Z := fold_right Z.add 0 l.
Definition i_sum (ys : list Z) : Z := wrap acc (zsum' ys).
Definition i_sq (ys : list Z) : list Z := map (fun y => wrap t (y * y)) ys.

(** regression.py:93-104; [n_delta * y_sum] is an integer product exactly if delta is the default 1. *)
Definition ireg_post_internal (prior : ng) (n y_sum y_sq : Z) (delta : option R) : ng :=
  let mu := ng_mu prior in let kappa := ng_kappa prior in
  let alpha := ng_alpha prior in let beta := ng_beta prior in
  let dl := match delta with None => 1%R | Some d => d end in
  let n_delta := (IZR n * dl)%R in
  let n_delta_y_sum := match delta with None => IZR (wrap acc (n * y_sum)) | Some _ => (n_delta * IZR y_sum)%R end in
  let kappa_post := (kappa + n_delta)%R in
  let mu_post := ((kappa * mu + n_delta_y_sum / IZR n) / kappa_post)%R in
  let alpha_post := (alpha + / 2 * n_delta)%R in
  let beta_post := (beta + / 2 * dl * (IZR y_sq - IZR (wrap acc (y_sum * y_sum)) / IZR n)
                   + / 2 * kappa * n_delta * (IZR y_sum / IZR n - mu) ^ 2 / (kappa + IZR n))%R in
  mkNG mu_post kappa_post alpha_post beta_post.

(** regression.py:83-91. *)
Definition ireg_posterior (delta : option R) (prior : ng) (ys : list Z) : ng :=
  if match delta with None => false | Some d => Reqb d 0 end then prior
  else ireg_post_internal prior (Z.of_nat (length ys)) (i_sum ys) (i_sum (i_sq ys)) delta.

(** regression.py:29-37. *)
Definition ireg_no_split (pp : R) (lvl : nat) (prior : ng) (ys : list Z) : R :=
  let n := Z.of_nat (length ys) in
  let post := ireg_post_internal prior n (i_sum ys) (i_sum (i_sq ys)) None in
  (ln (1 - pp ^ (1 + lvl)) + reg_log_p_data prior (ng_alpha post) (ng_beta post) (ng_kappa post) (IZR n))%R.

(** [cumsum] with 64-bit accumulation. *)
Definition i_cumsum (l : list Z) : list Z := map (fun k => i_sum (firstn k l)) (seq 1 (length l)).

(** regression.py:59-66. *)
Definition ireg_side (prior : ng) (ns sums sqs : list Z) : list R :=
  map (fun nsq => let '(n, (s, q)) := nsq in
         let post := ireg_post_internal prior n s q None in
         reg_log_p_data prior (ng_alpha post) (ng_beta post) (ng_kappa post) (IZR n))
      (combine ns (combine sums sqs)).

(** regression.py:39-68. *)
Definition ireg_split (pp : R) (lvl : nat) (prior : ng) (n_dim : nat) (ys : list Z) (splits : list nat) : list R :=
  let n := length ys in
  let n1 := map Z.of_nat (seq 1 (n - 1)) in
  let n2 := map (fun k => Z.of_nat n - k) n1 in
  let y_sum1 := removelast (i_cumsum ys) in
  let y_sum2 := map (fun s => wrap acc (i_sum ys - s)) y_sum1 in
  let y_sq1 := i_cumsum (i_sq (removelast ys)) in
  let y_sq2 := map (fun s => wrap acc (i_sum (i_sq ys) - s)) y_sq1 in
  let pick (l : list Z) : list Z :=
    if Nat.eqb (length splits) (n - 1) then l else map (fun s => nth (s - 1) l 0) splits in
  let log_p_prior := ln (pp ^ (1 + lvl) / (INR (length splits) * INR n_dim)) in
  map2 (fun a b => (log_p_prior + a + b)%R)
       (ireg_side prior (pick n1) (pick y_sum1) (pick y_sq1))
       (ireg_side prior (pick n2) (pick y_sum2) (pick y_sq2)).

(** [len(np.unique(y)) > 1] on integers. *)
Definition many_Z (ys : list Z) : bool :=
  match ys with [] => false | y0 :: rest => existsb (fun y => negb (Z.eqb y y0)) rest end.

Definition ireg_lik (pp delta : R) : lik Z ng R := {|
  l_prior := reg_get_prior;
  l_no_split := ireg_no_split pp;
  l_split := ireg_split pp;
  l_argmax := argmax Rgtb;
  l_gt := Rgtb;
  l_ge := Rgeb;
  l_post := ireg_posterior None;
  l_child_prior := fun prior ys => if Reqb delta 0 then prior else ireg_posterior (Some delta) prior ys;
  l_many := many_Z
|}.
End IReg.
