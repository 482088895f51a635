(** * FloatHyper: hyperplane trees in float64 (base_hyperplane.py:22-128, hyperplane_optimization.py:33-88), dense data. *)
From Coq Require Import Reals String Permutation.
From Flocq Require Import Core BinarySingleNaN.
From Verif Require Import Prelude Tree Perp RealOps Api Hyper FloatFeat FloatReg FloatClf.
Local Open Scope nat_scope.

(** A dot product as BLAS may compute it: the products are added in any order and grouping, each product rounded before it is
    added or fused with the addition. *)
Definition f_fma (a b c : float64) : float64 := Bfma mode_NE a b c.
Inductive dot_of : list (float64 * float64) -> float64 -> Prop :=
  | dot_nil : dot_of [] f_zero
  | dot_one a b : dot_of [(a, b)] (f_mul a b)
  | dot_add l l' x x' : dot_of l x -> dot_of l' x' -> dot_of (l ++ l') (f_add x x')
  | dot_fma a b l x : dot_of l x -> dot_of ((a, b) :: l) (f_fma a b x)
  | dot_perm l l' x : Permutation l l' -> dot_of l x -> dot_of l' x.
(** The order from left to right. *)
Definition f_dot (a b : list float64) : float64 := fold_left (fun s p => f_add s (f_mul (fst p) (snd p))) (combine a b) f_zero.

(** [np.nan_to_num] of one entry: 0 for NaN, the largest finite number for an infinity. *)
Definition f_max : float64 := Bmax_float.
Definition f_nan_to_num (x : float64) : float64 :=
  match x with B754_nan => f_zero | B754_infinity s => if s then Bopp f_max else f_max | _ => x end.
Definition f_sqrt (x : float64) : float64 := Bsqrt mode_NE x.

Section Geo.
(** [fdot] is [np.dot], also inside [np.linalg.norm] (the square root of the dot product of the vector with itself); [fmv x n] is
    the entry of [X @ n] for the row [x]. *)
Variables (fdot fmv : list float64 -> list float64 -> float64).
Variable fsum : list float64 -> float64.

(** hyperplane_optimization.py:40-44. *)
Definition f_unit (v : list float64) : list float64 :=
  let v1 := map f_nan_to_num v in
  let v2 := if forallb (fun x => Beqb x f_zero) v1 then set_nth 0 f_one v1 else v1 in
  map (fun x => f_div x (f_sqrt (fdot v2 v2))) v2.

(** hyperplane_optimization.py:33-88 and base_hyperplane.py:63-66, 124-126.  [pre] maps the argument of the objective to a vector
    (lines 36-37); [prec] is [split_precision]; [srt] is [np.argsort]. *)
Definition geo_f {C} (pre : C -> list float64) (prec : float64) (srt : (nat -> float64) -> nat -> list nat)
  : geo (list float64) C (list float64) (list float64) float64 float64 := {|
  g_unit := fun c => f_unit (pre c);
  g_proj := fmv;
  g_argsort := srt;
  g_gap := fun a b => Bltb prec (Babs (f_sub b a));
  g_mid := fun p1 p2 => map2 (fun a b => f_mul f_half (f_add a b)) p1 p2;
  g_dist := fun nrm org ps => fsum (map (fun x => Babs (f_sub x (fdot nrm org))) ps);
  g_zero := f_zero;
  g_far := fun a b => Bltb b a;
  g_back := fun nrm org x => Bltb (f_sub (fmv x nrm) (fdot nrm org)) f_zero;
  g_front := fun nrm org x => Bleb f_zero (f_sub (fmv x nrm) (fdot nrm org))
|}.
End Geo.

(** Both kinds of trees.  Children get the posterior with [delta=0] as their prior (base_hyperplane.py:77-78). *)
Definition hcl64_fit {C} fdot fmv fsum flog fgammaln fbetaln fpow pp delta (pre : C -> list float64) prec srt do_prune lvl pa cands
    (d : hset (list float64) float64) :=
  hyper_fit (geo_f fdot fmv fsum pre prec srt) (cl64_lik fsum flog fgammaln fbetaln fpow pp delta) (fun _ => cl64_posterior f_zero)
    cl64_same do_prune lvl pa cands d.
Definition hreg64_fit {C} fdot fmv fsum flog fgammaln fpow f2pi pp delta (pre : C -> list float64) prec srt do_prune lvl pa cands
    (d : hset (list float64) float64) :=
  hyper_fit (geo_f fdot fmv fsum pre prec srt) (freg_lik fsum flog fgammaln fpow f2pi pp delta) (fun _ => freg_posterior fsum f_zero)
    freg_same do_prune lvl pa cands d.
(** base_hyperplane.py:123-128 with base.py:125-145: the side of query rows, and the answers. *)
Definition h64_back fdot fmv (Xq : nat -> list float64) (pl : plane (list float64) (list float64)) (q : nat) : bool :=
  Bltb (f_sub (fmv (Xq q) (p_normal pl)) (fdot (p_normal pl) (p_origin pl))) f_zero.
Definition h64_front fdot fmv (Xq : nat -> list float64) (pl : plane (list float64) (list float64)) (q : nat) : bool :=
  Bleb f_zero (f_sub (fmv (Xq q) (p_normal pl)) (fdot (p_normal pl) (p_origin pl))).
Definition hcl64_predict fdot fmv (t : tree (plane (list float64) (list float64)) float64 (list float64)) (Xq : nat -> list float64) (m : nat) : list nat :=
  predict_rows (h64_back fdot fmv Xq) (h64_front fdot fmv Xq) (fun i => cl64_predict_leaf (i_post i)) t m 0.
Definition hreg64_predict fdot fmv (t : tree (plane (list float64) (list float64)) float64 fng) (Xq : nat -> list float64) (m : nat) : list float64 :=
  predict_rows (h64_back fdot fmv Xq) (h64_front fdot fmv Xq) (fun i => freg_predict_leaf (i_post i)) t m f_zero.
