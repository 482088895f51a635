(** * Importance: feature importance of perpendicular trees (base.py:104-123,
    base_perpendicular.py:205-213), over exact reals. *)
From Verif Require Import Prelude Tree Perp RealOps Api.
Local Open Scope nat_scope.

(** NumPy division of floats: [x / 0] is nan or inf (with a warning, no exception), written [None]. *)
Definition np_div (a b : R) : option R := if Reqb b 0 then None else Some (a / b)%R.

(** base_perpendicular.py:205-213 [_update_feature_importance]; the array is updated in place. *)
Fixpoint update_importance {P} (t : tree (pdesc string R) R P) (fi : list R) : res (list R) :=
  match t with
  | Leaf _ => Ok fi
  | Split _ s lp_no lp_best c1 c2 =>
      if sd_dim s <? length fi then
        let log_p_gain := (lp_best - lp_no)%R in
        let! fi1 := update_importance c1 (set_nth (sd_dim s) (nth (sd_dim s) fi 0 + log_p_gain)%R fi) in
        update_importance c2 fi1
      else Err IndexError
  end.

(** base.py:117-123 [feature_importance] of a fitted tree.  [n_dim_] exists at the root of every fitted
    tree. *)
Definition feature_importance {P} (t : tree (pdesc string R) R P) : res (list (option R)) :=
  match i_n_dim (info t) with
  | None => Err AttributeError
  | Some n_dim =>
      let! fi := update_importance t (repeat 0%R n_dim) in
      Ok (map (fun x => np_div x (vsum fi)) fi)
  end.
