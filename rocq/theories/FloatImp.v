(** * FloatImp: feature importance in float64 (base.py:117-123, base_perpendicular.py:205-213). *)
From Coq Require Import Reals String.
From Flocq Require Import Core BinarySingleNaN.
From Verif Require Import Prelude Tree Perp RealOps Api Spec FloatFeat FloatReg.
Local Open Scope nat_scope.

(** base_perpendicular.py:205-213 [_update_feature_importance]; the array is updated in place. *)
Fixpoint f_update_importance {V P} (t : tree (pdesc string V) float64 P) (fi : list float64) : res (list float64) :=
  match t with
  | Leaf _ => Ok fi
  | Split _ s lp_no lp_best c1 c2 =>
      if sd_dim s <? length fi then
        let log_p_gain := f_sub lp_best lp_no in
        let! fi1 := f_update_importance c1 (set_nth (sd_dim s) (f_add (nth (sd_dim s) fi f_zero) log_p_gain) fi) in
        f_update_importance c2 fi1
      else Err IndexError
  end.

(** base.py:117-123 [feature_importance] of a fitted tree; [fsum] is the order of additions of [np.sum].  A division by zero
    gives NaN, as in NumPy. *)
Definition f_feature_importance {V P} (fsum : list float64 -> float64) (t : tree (pdesc string V) float64 P) : res (list float64) :=
  match i_n_dim (info t) with
  | None => Err AttributeError
  | Some n_dim =>
      let! fi := f_update_importance t (repeat f_zero n_dim) in
      Ok (map (fun x => f_div x (fsum fi)) fi)
  end.
