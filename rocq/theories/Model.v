(** * Model: the estimator objects with their public methods (base.py:28-123, 167-193; classification.py:25-46;
    base_perpendicular.py:18-43). *)
From Coq Require Import Reals.
From Verif Require Import Prelude Tree Perp RealOps Clf Reg Api Importance Hyper Object Validate.
Local Open Scope nat_scope.

(** Number of nodes of an object, enough fuel for [_prune]. *)
Fixpoint osize {U S P} (o : obj U S P) : nat :=
  match o with
  | Obj _ c1 c2 => 1 + match c1 with Ref o1 => osize o1 | _ => 0 end + match c2 with Ref o2 => osize o2 | _ => 0 end
  end.
Definition prune_obj {U D S P} (K : klass U D) (same : P -> P -> bool) : @M U S P :=
  reading (fun s => oprune K same (osize s)).

(** [feature_importance] of an object: base_perpendicular.py:205-213, base_hyperplane.py:143-156; [upd d no best] adds the
    gain of one split to the array. *)
Fixpoint oimportance {U D S P Acc} (K : klass U D) (upd : D -> S -> S -> Acc -> res Acc) (o : obj U S P) (acc : Acc) : res Acc :=
  match o with
  | Obj a c1 c2 =>
      let! sp := node_split K o in
      match sp with
      | None => Ok acc
      | Some d =>
          match at_best a, at_no a with
          | Some (Some lp_best), Some (Some lp_no) =>
              let! acc1 := upd d lp_no lp_best acc in
              match c1 with
              | PyNone => Ok acc1
              | Unset => Err AttributeError
              | Ref o1 =>
                  let! acc2 := oimportance K upd o1 acc1 in
                  match c2 with Ref o2 => oimportance K upd o2 acc2 | _ => Err AttributeError end
              end
          | Some None, Some _ | Some _, Some None => Err TypeError
          | _, _ => Err AttributeError
          end
      end
  end.
(** base_perpendicular.py:209-210. *)
Definition perp_upd {NM V} (d : pdesc NM V) (lp_no lp_best : R) (fi : list R) : res (list R) :=
  if sd_dim d <? length fi then Ok (set_nth (sd_dim d) (nth (sd_dim d) fi 0 + (lp_best - lp_no))%R fi) else Err IndexError.
(** base_hyperplane.py:147-153. *)
Definition hyper_upd (pl : plane (list R) (list R)) (lp_no lp_best : R) (fi : list R) : res (list R) :=
  Ok (map2 Rplus fi (map (fun w => (lp_best - lp_no) * Rabs w)%R (p_normal pl))).
(** base.py:116-123, base_hyperplane.py:134-141. *)
Definition api_importance {U D P} (K : klass U D) (upd : D -> R -> R -> list R -> res (list R)) (o : obj U R P) : res (list (option R)) :=
  let! _ := ensure_is_fitted o None in
  match at_ndim (oattrs o) with
  | None => Err AttributeError
  | Some n =>
      let! fi := oimportance K upd o (repeat 0%R n) in
      Ok (map (fun x => np_div x (vsum fi)) fi)
  end.

Section Queries.
Context {E A NM U D S P : Type}.
Variable K : klass U D.
Variable cx : cast E A.
Variable x_name : nat -> NM.
(** Comparisons of [_compute_child1_and_child2_indices] for a row of a query matrix. *)
Variables go1 go2 : arr A -> D -> nat -> bool.

(** base.py:94-102 [predict], 186-193 [_get_raw_leaf_data], classification.py:40-46 [predict_proba]: [val prior posterior] is
    the value of a leaf, [init] the initial entry of the result.
    Simplification: the final [np.array(...)] of the latter two is omitted. *)
Definition api_query {O} (val : option P -> P -> O) (init : O) (o : obj U S P) (x : xin E NM) : res (list O) :=
  let! p := normalize cx x_name x None in
  let! _ := ensure_is_fitted o (Some (cols (fst p))) in
  opredict K (go1 (fst p)) (go2 (fst p)) val o (seq 0 (len (fst p))) (repeat init (len (fst p))).

(** base_perpendicular.py:37-43 [prediction_paths]. *)
Definition api_paths {St} (step : D -> bool -> St) (o : obj U S P) (x : xin E NM) : res (list (list St)) :=
  let! p := normalize cx x_name x None in
  let! _ := ensure_is_fitted o (Some (cols (fst p))) in
  let n := len (fst p) in
  opaths K (go1 (fst p)) (go2 (fst p)) step o (seq 0 n) (seq 0 n) (repeat [] n).
End Queries.
(** base.py:250-270 [get_depth], [get_n_leaves]. *)
Definition api_depth {U D S P} (K : klass U D) (o : obj U S P) : res nat := odepth K o 0.
Definition api_n_leaves {U D S P} (K : klass U D) (o : obj U S P) : res nat := on_leaves K o 0.

(** Arguments of [fit]. *)
Record fit_args (E NM : Type) := mkArgs { fa_X : xin E NM; fa_y : arr E; fa_names : option (list NM) }.
Arguments mkArgs {E NM}.
Arguments fa_X {E NM}.
Arguments fa_y {E NM}.
Arguments fa_names {E NM}.

Section Fit.
Context {E Y P S NM : Type}.
Variable cy : cast E Y.
Variable x_name : nat -> NM.
(** [self._check_target], [partition_prior]-dependent methods, comparison of [_predict_leaf], [self.prune]. *)
Variable check : option P -> arr Y -> res unit.
Variable L : lik Y P S.
Variable same : P -> P -> bool.
Variable do_prune : bool.
Variable y0 : Y.

(** base.py:28-74 [fit] of a perpendicular tree. *)
Definition api_fit {A V} (cx : cast E A) (F : feat A V) (x0 : A) (a : fit_args E NM) : @M (psplit NM V) S P :=
  reading (fun self =>
    lifted (validate cx cy x_name (check (at_prior (oattrs self))) (fa_X a) (fa_y a) (fa_names a)) (fun v =>
      ofit_root F L (entry x0 (v_X v)) (target y0 v) (v_names v) (len (v_X v)) (cols (v_X v)) ;;
      (if do_prune then prune_obj perp_klass same else done))).

(** base.py:28-74 [fit] of a hyperplane tree; [row m i] is row [i] of the matrix [m]. *)
Definition api_hfit {A W C N O J Q} (cx : cast E A) (G : geo W C N O J Q) (post : R -> P -> list Y -> P) (row : arr A -> nat -> W)
    (cands : list bool -> list C) (a : fit_args E NM) : @M (hsplit N O) S P :=
  reading (fun self =>
    lifted (validate cx cy x_name (check (at_prior (oattrs self))) (fa_X a) (fa_y a) (fa_names a)) (fun v =>
      ohfit G L post (row (v_X v)) (target y0 v) (cols (v_X v)) cands (Datatypes.S (len (v_X v))) [] (seq 0 (len (v_X v))) ;;
      (if do_prune then prune_obj hyper_klass same else done))).
End Fit.
