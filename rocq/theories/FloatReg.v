(** * FloatReg: regression.py in float64 (one NaN, round to nearest even, as in FloatFeat.v).

    [np.log], [gammaln], [partition_prior**k], the constant [2*np.pi] and the order of additions in [y.sum()] are parameters
    (NumPy adds fewer than eight numbers from left to right and longer arrays in another order).  Squares are correctly
    rounded. *)
From Coq Require Import Reals.
From Flocq Require Import Core BinarySingleNaN.
From Verif Require Import Prelude Tree Perp FloatFeat.

Definition f_add (a b : float64) : float64 := Bplus mode_NE a b.
Definition f_sub (a b : float64) : float64 := Bminus mode_NE a b.
Definition f_mul (a b : float64) : float64 := Bmult mode_NE a b.
Definition f_div (a b : float64) : float64 := Bdiv mode_NE a b.
Definition f_sq (a : float64) : float64 := f_mul a a.
Definition f_zero : float64 := B754_zero false.
Definition f_one : float64 := Bone.
Definition f_half : float64 := half_f.
(** An integer converted to float64. *)
Definition f_int (z : Z) : float64 := binary_normalize 53 1024 prec64_pos prec64_lt mode_NE z 0 false.
Definition f_nat (n : nat) : float64 := f_int (Z.of_nat n).

(** Addition from left to right: [sum] of a short array, and [cumsum]. *)
Definition f_sum (l : list float64) : float64 := fold_left f_add l f_zero.
Fixpoint f_cumsum_from (acc : float64) (l : list float64) : list float64 :=
  match l with [] => [] | a :: t => f_add acc a :: f_cumsum_from (f_add acc a) t end.
Definition f_cumsum (l : list float64) : list float64 := f_cumsum_from f_zero l.

(** (mu, kappa, alpha, beta). *)
Record fng := mkFNG { fn_mu : float64; fn_kappa : float64; fn_alpha : float64; fn_beta : float64 }.

(** regression.py:93-104 [_compute_posterior_internal], operation by operation; [n] is an integer. *)
Definition freg_post_internal (prior : fng) (n : nat) (y_sum y_sq delta : float64) : fng :=
  let mu := fn_mu prior in let kappa := fn_kappa prior in
  let n_delta := f_mul (f_nat n) delta in
  let kappa_post := f_add kappa n_delta in
  let mu_post := f_div (f_add (f_mul kappa mu) (f_div (f_mul n_delta y_sum) (f_nat n))) kappa_post in
  let alpha_post := f_add (fn_alpha prior) (f_mul f_half n_delta) in
  let beta_post :=
    f_add (f_add (fn_beta prior) (f_mul (f_mul f_half delta) (f_sub y_sq (f_div (f_sq y_sum) (f_nat n)))))
          (f_div (f_mul (f_mul (f_mul f_half kappa) n_delta) (f_sq (f_sub (f_div y_sum (f_nat n)) mu))) (f_add kappa (f_nat n))) in
  mkFNG mu_post kappa_post alpha_post beta_post.

(** regression.py:83-91 [_compute_posterior]; [fsum] is [sum] of an array. *)
Definition freg_posterior (fsum : list float64 -> float64) (delta : float64) (prior : fng) (ys : list float64) : fng :=
  if Beqb delta f_zero then prior
  else freg_post_internal prior (length ys) (fsum ys) (fsum (map f_sq ys)) delta.

Section Logs.
(** [np.sum], [np.log], [scipy.special.gammaln], [x ** k] for an integer [k] and [2*np.pi]. *)
Variable fsum : list float64 -> float64.
Variables (flog fgammaln : float64 -> float64) (fpow : float64 -> nat -> float64) (f2pi : float64).
Variables (pp delta : float64).

(** regression.py:109-116 [_compute_log_p_data]. *)
Definition freg_log_p_data (prior : fng) (alpha_new beta_new kappa_new : float64) (n_new : nat) : float64 :=
  f_sub (f_add (f_sub (f_add (f_sub (fgammaln alpha_new) (fgammaln (fn_alpha prior)))
                             (f_mul (fn_alpha prior) (flog (fn_beta prior))))
                      (f_mul alpha_new (flog beta_new)))
               (f_mul f_half (flog (f_div (fn_kappa prior) kappa_new))))
        (f_mul (f_mul f_half (f_nat n_new)) (flog f2pi)).

(** regression.py:29-37 [_compute_log_p_data_no_split]. *)
Definition freg_no_split (lvl : nat) (prior : fng) (ys : list float64) : float64 :=
  let post := freg_post_internal prior (length ys) (fsum ys) (fsum (map f_sq ys)) f_one in
  f_add (flog (f_sub f_one (fpow pp (1 + lvl)))) (freg_log_p_data prior (fn_alpha post) (fn_beta post) (fn_kappa post) (length ys)).

(** regression.py:59-66, for one split position. *)
Definition freg_side (prior : fng) (n : nat) (y_sum y_sq : float64) : float64 :=
  let post := freg_post_internal prior n y_sum y_sq f_one in
  freg_log_p_data prior (fn_alpha post) (fn_beta post) (fn_kappa post) n.

(** regression.py:39-68 [_compute_log_p_data_split]; position [s] is entry [s - 1] of the cumulative sums. *)
Definition freg_split (lvl : nat) (prior : fng) (n_dim : nat) (ys : list float64) (splits : list nat) : list float64 :=
  let n := length ys in
  let sums := f_cumsum ys in
  let sqs := f_cumsum (map f_sq (removelast ys)) in
  let log_p_prior := flog (f_div (fpow pp (1 + lvl)) (f_nat (length splits * n_dim))) in
  map (fun s =>
    let s1 := nth (s - 1) sums f_zero in
    let q1 := nth (s - 1) sqs f_zero in
    f_add (f_add log_p_prior (freg_side prior s s1 q1))
          (freg_side prior (n - s) (f_sub (fsum ys) s1) (f_sub (fsum (map f_sq ys)) q1))) splits.

(** regression.py:70-81 [_get_prior]. *)
Definition freg_get_prior (prior : option fng) (n_data n_dim : nat) : fng :=
  match prior with
  | Some p => p
  | None =>
      let c := f_nat (Nat.max 1 (n_data / 100)) in
      let alpha := f_div c (f_int 2) in
      mkFNG f_zero c alpha (f_div alpha f_one)
  end.

(** [np.argmax]: the first nan if there is one, else the first maximum. *)
Definition f_argmax (l : list float64) : nat := argmax (fun a b => (is_nan a && negb (is_nan b)) || Bltb b a) l.
(** [len(np.unique(y)) > 1] for targets without nan. *)
Definition f_many (l : list float64) : bool := match l with [] => false | a :: t => existsb (fun b => negb (Beqb b a)) t end.

Definition freg_lik : lik float64 fng float64 := {|
  l_prior := freg_get_prior;
  l_no_split := freg_no_split;
  l_split := freg_split;
  l_argmax := f_argmax;
  l_gt := fun a b => Bltb b a;
  l_ge := fun a b => Bleb b a;
  l_post := freg_posterior fsum f_one;
  l_child_prior := fun prior ys => if Beqb delta f_zero then prior else freg_posterior fsum delta prior ys;
  l_many := f_many
|}.
End Logs.

(** regression.py:106-107, 118-120. *)
Definition freg_predict_leaf (posterior : fng) : float64 := fn_mu posterior.
(** base.py:147-165: the children of a split predict the same. *)
Definition freg_same (i j : ninfo fng) : bool := Beqb (freg_predict_leaf (i_post i)) (freg_predict_leaf (i_post j)).
