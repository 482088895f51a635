(** * Nonfinite: regression.py with targets that may be inf, -inf or nan.

    Arithmetic on finite numbers is exact (as in Reg.v, including its use of total division and logarithm); the special values
    follow IEEE 754. *)
From Coq Require Import Reals.
From Verif Require Import Prelude Tree Perp Gamma RealOps Reg Hyper Api.
Local Open Scope R_scope.

Inductive ext := Fin (r : R) | PInf | NInf | NaN.

Definition x_neg (a : ext) : ext := match a with Fin x => Fin (- x) | PInf => NInf | NInf => PInf | NaN => NaN end.
Definition x_add (a b : ext) : ext :=
  match a, b with
  | NaN, _ | _, NaN | PInf, NInf | NInf, PInf => NaN
  | PInf, _ | _, PInf => PInf
  | NInf, _ | _, NInf => NInf
  | Fin x, Fin y => Fin (x + y)
  end.
Definition x_sub (a b : ext) : ext := x_add a (x_neg b).
(** Product with a number: inf * 0 is nan. *)
Definition x_scale (r : R) (a : ext) : ext :=
  match a with
  | Fin x => Fin (r * x)
  | NaN => NaN
  | PInf | NInf => if Reqb r 0 then NaN else if Rgtb r 0 then a else x_neg a
  end.
(** Quotient by a number other than zero. *)
Definition x_div (a : ext) (r : R) : ext :=
  match a with Fin x => Fin (x / r) | NaN => NaN | PInf | NInf => if Rgtb r 0 then a else x_neg a end.
(** [a ** 2]. *)
Definition x_sq (a : ext) : ext := match a with Fin x => Fin (x ^ 2) | NaN => NaN | PInf | NInf => PInf end.
(** [np.log]; of a number as in Reg.v. *)
Definition x_ln (a : ext) : ext := match a with Fin x => Fin (ln x) | PInf => PInf | NInf | NaN => NaN end.
(** [a > b], [a >= b], [a == b]; false if one of them is nan. *)
Definition x_gt (a b : ext) : bool :=
  match a, b with
  | NaN, _ | _, NaN => false
  | Fin x, Fin y => Rgtb x y
  | PInf, PInf => false
  | PInf, _ => true
  | _, PInf => false
  | _, NInf => negb (match a with NInf => true | _ => false end)
  | NInf, _ => false
  end.
Definition x_eq (a b : ext) : bool :=
  match a, b with Fin x, Fin y => Reqb x y | PInf, PInf | NInf, NInf => true | _, _ => false end.
Definition x_ge (a b : ext) : bool := match a, b with Fin x, Fin y => Rgeb x y | _, _ => x_gt a b || x_eq a b end.
Definition x_nan (a : ext) : bool := match a with NaN => true | _ => false end.
(** [np.argmax]: the first nan if there is one, else the first maximum. *)
Definition x_argmax (l : list ext) : nat := argmax (fun a b => (x_nan a && negb (x_nan b)) || x_gt a b) l.

(** [sum] and [cumsum]. *)
Definition x_sum (l : list ext) : ext := fold_right x_add (Fin 0) l.
Fixpoint x_cumsum_from (acc : ext) (l : list ext) : list ext :=
  match l with [] => [] | a :: t => x_add acc a :: x_cumsum_from (x_add acc a) t end.
Definition x_cumsum (l : list ext) : list ext := x_cumsum_from (Fin 0) l.

(** (mu, kappa, alpha, beta); kappa and alpha do not depend on the targets. *)
Record xng := mkXNG { x_mu : ext; x_kappa : R; x_alpha : R; x_beta : ext }.

(** regression.py:93-104. *)
Definition xreg_post_internal (prior : xng) (n : R) (y_sum y_sq : ext) (delta : R) : xng :=
  let kappa := x_kappa prior in
  let n_delta := n * delta in
  let kappa_post := kappa + n_delta in
  let mu_post := x_div (x_add (x_scale kappa (x_mu prior)) (x_div (x_scale n_delta y_sum) n)) kappa_post in
  let alpha_post := x_alpha prior + / 2 * n_delta in
  let beta_post := x_add (x_add (x_beta prior) (x_scale (/ 2 * delta) (x_sub y_sq (x_div (x_sq y_sum) n))))
                         (x_div (x_scale (/ 2 * kappa * n_delta) (x_sq (x_sub (x_div y_sum n) (x_mu prior)))) (kappa + n)) in
  mkXNG mu_post kappa_post alpha_post beta_post.

(** regression.py:83-91. *)
Definition xreg_posterior (delta : R) (prior : xng) (ys : list ext) : xng :=
  if Reqb delta 0 then prior
  else xreg_post_internal prior (INR (length ys)) (x_sum ys) (x_sum (map x_sq ys)) delta.

(** regression.py:109-116. *)
Definition xreg_log_p_data (prior : xng) (alpha_new : R) (beta_new : ext) (kappa_new n_new : R) : ext :=
  x_add (x_add (x_sub (x_add (Fin (gammaln alpha_new - gammaln (x_alpha prior))) (x_scale (x_alpha prior) (x_ln (x_beta prior))))
                      (x_scale alpha_new (x_ln beta_new)))
               (Fin (/ 2 * ln (x_kappa prior / kappa_new))))
        (Fin (- (/ 2 * n_new * ln (2 * PI)))).

(** regression.py:29-37. *)
Definition xreg_no_split (pp : R) (lvl : nat) (prior : xng) (ys : list ext) : ext :=
  let n := INR (length ys) in
  let post := xreg_post_internal prior n (x_sum ys) (x_sum (map x_sq ys)) 1 in
  x_add (Fin (ln (1 - pp ^ (1 + lvl)))) (xreg_log_p_data prior (x_alpha post) (x_beta post) (x_kappa post) n).

(** regression.py:59-66. *)
Definition xreg_side (prior : xng) (ns : list R) (sums sqs : list ext) : list ext :=
  map (fun nsq => let '(n, (s, q)) := nsq in
         let post := xreg_post_internal prior n s q 1 in
         xreg_log_p_data prior (x_alpha post) (x_beta post) (x_kappa post) n)
      (combine ns (combine sums sqs)).

(** regression.py:39-68. *)
Definition xreg_split (pp : R) (lvl : nat) (prior : xng) (n_dim : nat) (ys : list ext) (splits : list nat) : list ext :=
  let n := length ys in
  let n1 := map INR (seq 1 (n - 1)) in
  let n2 := map (fun k => INR n - k) n1 in
  let y_sum1 := removelast (x_cumsum ys) in
  let y_sum2 := map (fun s => x_sub (x_sum ys) s) y_sum1 in
  let y_sq1 := x_cumsum (map x_sq (removelast ys)) in
  let y_sq2 := map (fun s => x_sub (x_sum (map x_sq ys)) s) y_sq1 in
  let pick {B} (d : B) (l : list B) : list B :=
    if Nat.eqb (length splits) (n - 1) then l else map (fun s => nth (s - 1) l d) splits in
  let log_p_prior := ln (pp ^ (1 + lvl) / (INR (length splits) * INR n_dim)) in
  map2 (fun a b => x_add (x_add (Fin log_p_prior) a) b)
       (xreg_side prior (pick 0 n1) (pick (Fin 0) y_sum1) (pick (Fin 0) y_sq1))
       (xreg_side prior (pick 0 n2) (pick (Fin 0) y_sum2) (pick (Fin 0) y_sq2)).

(** regression.py:70-81. *)
Definition finite_ng (p : ng) : xng := mkXNG (Fin (ng_mu p)) (ng_kappa p) (ng_alpha p) (Fin (ng_beta p)).
Definition xreg_get_prior (prior : option xng) (n_data n_dim : nat) : xng :=
  match prior with Some p => p | None => finite_ng (reg_get_prior None n_data n_dim) end.

(** [len(np.unique(y)) > 1]; equal nans count once. *)
Definition ext_dec (a b : ext) : {a = b} + {a <> b}.
Proof. decide equality. apply Req_EM_T. Defined.
Definition many_x (ys : list ext) : bool := Nat.ltb 1 (length (nodup ext_dec ys)).

Definition xreg_lik (pp delta : R) : lik ext xng ext := {|
  l_prior := xreg_get_prior;
  l_no_split := xreg_no_split pp;
  l_split := xreg_split pp;
  l_argmax := x_argmax;
  l_gt := x_gt;
  l_ge := x_ge;
  l_post := xreg_posterior 1;
  l_child_prior := fun prior ys => if Reqb delta 0 then prior else xreg_posterior delta prior ys;
  l_many := many_x
|}.

(** base.py:155. *)
Definition xreg_same (i j : ninfo xng) : bool := x_eq (x_mu (i_post i)) (x_mu (i_post j)).

(** [PerpendicularRegressionTree(...).fit(X, y)] after validation, and [predict]. *)
Definition xreg_fit (srt : (nat -> R) -> nat -> list nat) (h : hyper ng) (d : tset R ext) : res (tree (pdesc string R) ext xng) :=
  perp_fit (feat_R (h_prec h) srt) (xreg_lik (h_pp h) (h_delta h)) xreg_same (h_prune h) 0 (option_map finite_ng (h_prior h)) d.
Definition xreg_predict (t : tree (pdesc string R) ext xng) (Xq : nat -> nat -> R) (m : nat) : list ext :=
  predict_rows (goes_left Xq) (goes_right Xq) (fun i => x_mu (i_post i)) t m (Fin 0).

(** [HyperplaneRegressionTree(...).fit(X, y)] and [predict], see Hyper.v. *)
Definition xhreg_fit {C} (pre : C -> list R) (srt : (nat -> R) -> nat -> list nat) (cands : list bool -> list C)
    (h : hyper ng) (d : hset (list R) ext) : res (tree (plane (list R) (list R)) ext xng) :=
  hyper_fit (geo_R pre (h_prec h) srt) (xreg_lik (h_pp h) (h_delta h)) xreg_posterior xreg_same (h_prune h) 0
    (option_map finite_ng (h_prior h)) cands d.
Definition xhreg_predict (t : tree (plane (list R) (list R)) ext xng) (Xq : nat -> list R) (m : nat) : list ext :=
  predict_rows (behind Xq) (before Xq) (fun i => x_mu (i_post i)) t m (Fin 0).
