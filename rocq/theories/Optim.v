(** * Optim: the optimizers of hyperplane_optimization.py:158-442 and the quasi-random sequence of utils.py:15-44.

    The pseudo random generator is an arbitrary stream of draws; the objective is an arbitrary function that may raise. *)
From Coq Require Import Reals.
From Verif Require Import Prelude Tree Perp RealOps Clf Reg Api Hyper Sphere.
Local Open Scope R_scope.

(** ** Running against a random stream and an objective

    The state is the number of draws made so far and the points evaluated so far, the latest first. *)
Record rstate := mkR { r_draws : nat; r_evals : list (list R) }.
Definition M (A : Type) : Type := rstate -> res A * rstate.
Definition ret {A} (a : A) : M A := fun s => (Ok a, s).
Definition raise {A} (e : exn) : M A := fun s => (Err e, s).
Definition bind {A B} (m : M A) (k : A -> M B) : M B :=
  fun s => match m s with (Ok a, s') => k a s' | (Err e, s') => (Err e, s') end.
Notation "x <- m ;; k" := (bind m (fun x => k)) (at level 61, m at next level, right associativity).

(** [for a in l: s = body(a, s)]. *)
Fixpoint for_each {A S} (l : list A) (body : A -> S -> M S) (s : S) : M S :=
  match l with
  | [] => ret s
  | a :: l' => s' <- body a s ;; for_each l' body s'
  end.

(** [optimization_function.compute(point)]. *)
Definition evaluate (obj : list R -> res R) (point : list R) : M R :=
  fun s => (obj point, mkR (r_draws s) (point :: r_evals s)).
(** [rand.uniform(a, b, n)] for a generator whose [k]-th draw from [0, 1) is [rnd k]. *)
Definition uniform (rnd : nat -> R) (a b : R) (n : nat) : M (list R) :=
  fun s => (Ok (map (fun k => a + (b - a) * rnd (r_draws s + k)%nat) (seq 0 n)), mkR (r_draws s + n) (r_evals s)).

(** ** A dictionary from values to points *)
Definition dict : Type := list (R * list R).
Definition keys (d : dict) : list R := map fst d.
(** [d[v] = p]: an existing key keeps its place. *)
Fixpoint d_set (d : dict) (v : R) (p : list R) : dict :=
  match d with
  | [] => [(v, p)]
  | (w, q) :: d' => if Reqb w v then (w, p) :: d' else (w, q) :: d_set d' v p
  end.
(** [d[v]]; only used for keys of [d]. *)
Fixpoint d_get (d : dict) (v : R) : list R :=
  match d with
  | [] => []
  | (w, q) :: d' => if Reqb w v then q else d_get d' v
  end.
(** [sorted(l)]. *)
Fixpoint insert_key (v : R) (l : list R) : list R :=
  match l with
  | [] => [v]
  | w :: l' => if Rleb v w then v :: l else w :: insert_key v l'
  end.
Definition sort_keys (l : list R) : list R := fold_right insert_key [] l.

(** [np.clip(p, 0, 1)]. *)
Definition clip (p : list R) : list R := map (fun a => Rmin 1 (Rmax 0 a)) p.

(** The best value known before a round; [None] is [np.inf]. *)
Definition improves (v : R) (best : option R) : bool := match best with None => true | Some b => Rltb v b end.

(** Lines 333-341 and 434-442: keep the best [n_keep] candidates, count the rounds without improvement. *)
Definition keep_best (n_keep : nat) (best : option R) (idle : nat) (cands : dict) : M (nat * dict) :=
  let values_sorted := firstn n_keep (sort_keys (keys cands)) in
  match values_sorted with
  | [] => raise IndexError
  | v0 :: _ => ret (if improves v0 best then 0%nat else (1 + idle)%nat, map (fun v => (v, d_get cands v)) values_sorted)
  end.

(** ** SimulatedAnnealingOptimizer.solve (hyperplane_optimization.py:295-341)

    [n_dim] is the number of coordinates of the search space.  Simplification: the unused list [ranges] (lines 316-317) is
    left out. *)
Section Annealing.
Variables (rnd : nat -> R) (obj : list R -> res R) (n_dim n_scan n_keep : nat) (spread : R).

(** Lines 309-313 (also 370-374): the first round. *)
Definition scan (n : nat) (cands : dict) : M dict :=
  for_each (seq 0 n) (fun _ c => p <- uniform rnd 0 1 n_dim ;; v <- evaluate obj p ;; ret (d_set c v p)) cands.

(** Lines 319-329. *)
Definition evolve (f : R) (cands : dict) : M dict :=
  let values_sorted := sort_keys (keys cands) in
  for_each (seq 0 n_keep) (fun i c =>
    let candidate := d_get c (nth (i * length values_sorted / n_keep) values_sorted 0) in
    u <- uniform rnd (-1) 1 n_dim ;;
    let p := clip (map2 Rplus candidate (map (fun a => f * a) u)) in
    v <- evaluate obj p ;; ret (d_set c v p)) cands.

(** Lines 307-341; [idle] is [no_improvements]. *)
Fixpoint sa_loop (fuel : nat) (idle : nat) (best : option R) (f : R) (cands : dict) : M unit :=
  match fuel with
  | 0%nat => raise OutOfFuel
  | S fuel' =>
      if (idle <? 50)%nat then
        match cands with
        | [] =>
            c <- scan n_scan [] ;;
            r <- keep_best n_keep best idle c ;;
            sa_loop fuel' (fst r) best f (snd r)
        | _ =>
            let best' := Some (nth 0 (sort_keys (keys cands)) 0) in
            c <- evolve f cands ;;
            r <- keep_best n_keep best' idle c ;;
            sa_loop fuel' (fst r) best' (f * spread) (snd r)
        end
      else ret tt
  end.
Definition sa_solve (fuel : nat) : M unit := sa_loop fuel 0 None 1 [].
End Annealing.

(** ** GradientDescentOptimizer.solve (hyperplane_optimization.py:356-442) *)
Section Descent.
Variables (rnd : nat -> R) (obj : list R -> res R) (n_dim n_init n_keep : nat).

(** Lines 390-402: one pass over the coordinates [dims] with a positive step [delta].  Returns the entries of the gradient, or [None]
    if one of them is zero ([delta_too_small]). *)
Fixpoint gradient (value delta : R) (candidate : list R) (dims : list nat) : M (option (list R)) :=
  match dims with
  | [] => ret (Some [])
  | i :: dims' =>
      let step := if Rgtb (nth i candidate 0 + delta) 1 then - delta else delta in
      v <- evaluate obj (set_nth i (nth i candidate 0 + step) candidate) ;;
      let g := (v - value) / step in
      if Reqb g 0 then ret None
      else r <- gradient value (Rabs step) candidate dims' ;;
           ret (match r with None => None | Some gs => Some (g :: gs) end)
  end.

(** Lines 385-410: enlarge the step until no entry is zero; [None] if that fails.  Returns the gradient and the step. *)
Fixpoint find_gradient (fuel : nat) (value delta : R) (candidate : list R) : M (option (list R * R)) :=
  match fuel with
  | 0%nat => raise OutOfFuel
  | S fuel' =>
      r <- gradient value delta candidate (seq 0 n_dim) ;;
      match r with
      | Some g => ret (Some (g, delta))
      | None => if Rgeb (delta * 10) 1 then ret None else find_gradient fuel' value (delta * 10) candidate
      end
  end.

(** Lines 418-430. *)
Fixpoint line_search (fuel : nat) (lambda : R) (candidate grad : list R) (best_p : list R) (best_v : R) : M (R * list R) :=
  match fuel with
  | 0%nat => raise OutOfFuel
  | S fuel' =>
      let p := clip (map2 (fun a g => a - lambda * g) candidate grad) in
      v <- evaluate obj p ;;
      if Rltb v best_v then line_search fuel' (lambda * 2) candidate grad p v else ret (best_v, best_p)
  end.

(** Lines 377-432: one round over the best candidates; the state is the dictionary and [start_delta]. *)
Definition descend (fuel : nat) (start : R) (cands : dict) : M (dict * R) :=
  let values_sorted := sort_keys (keys cands) in
  for_each (seq 0 n_keep) (fun i s =>
    let value := nth (i * length values_sorted / n_keep) values_sorted 0 in
    let candidate := d_get (fst s) value in
    r <- find_gradient fuel value (snd s) candidate ;;
    match r with
    | None => ret s
    | Some gd =>
        b <- line_search fuel (/ 10 ^ 6) candidate (fst gd) candidate value ;;
        ret (d_set (fst s) (fst b) (snd b), snd gd / 10)
    end) (cands, start).

(** Lines 368-442; all inner loops get the fuel [inner]. *)
Fixpoint gd_loop (fuel inner : nat) (idle : nat) (best : option R) (start : R) (cands : dict) : M unit :=
  match fuel with
  | 0%nat => raise OutOfFuel
  | S fuel' =>
      if (idle <? 3)%nat then
        match cands with
        | [] =>
            c <- scan rnd obj n_dim n_init [] ;;
            r <- keep_best n_keep best idle c ;;
            gd_loop fuel' inner (fst r) best start (snd r)
        | _ =>
            let best' := Some (nth 0 (sort_keys (keys cands)) 0) in
            s <- descend inner start cands ;;
            r <- keep_best n_keep best' idle (fst s) ;;
            gd_loop fuel' inner (fst r) best' (snd s) (snd r)
        end
      else ret tt
  end.
Definition gd_solve (fuel : nat) : M unit := gd_loop fuel fuel 0 None (/ 10 ^ 6) [].
End Descent.

(** ** QuasiRandomHyperplaneOptimizer.solve (hyperplane_optimization.py:242-251) *)

(** [x % 1]. *)
Definition mod1 (x : R) : R := x - IZR (Int_part x).
(** utils.py:37-44: the [i]-th point of the sequence, for the value [phi] found by the loop at lines 27-35.
    Simplification: [phi] is arbitrary here; its fixed point loop is in Phi.v. *)
Definition r2_point (phi : R) (n_dim i : nat) : list R :=
  map (fun j => mod1 (1 / 2 + 1 / phi ^ (1 + j) * INR (i + 1))) (seq 0 n_dim).
(** utils.py:24-25: no dimensions are rejected when the first point is requested. *)
Definition quasi_solve (obj : list R -> res R) (phi : R) (n_dim n : nat) : M unit :=
  for_each (seq 0 n) (fun i _ =>
    match n_dim with
    | 0%nat => raise ValueError
    | _ => _ <- evaluate obj (r2_point phi n_dim i) ;; ret tt
    end) tt.

(** ** RandomHyperplaneOptimizer.solve (hyperplane_optimization.py:219-227); [nrm k] is the [k]-th normal draw. *)
Definition random_solve (obj : list R -> res R) (nrm : nat -> R) (n_features n_mc : nat) : M unit :=
  for_each (seq 0 n_mc) (fun i _ =>
    _ <- evaluate obj (map (fun k => nrm (i * n_features + k)%nat) (seq 0 n_features)) ;; ret tt) tt.

(** ** RandomTwoPointOptimizer.solve (hyperplane_optimization.py:158-203) *)
Section TwoPoint.
(** [rnd k n] is the [k]-th draw if made with [rand.randint(0, n)]. *)
Variables (rnd : nat -> Z -> Z) (obj : list R -> res R).
(** The rows and targets of the node. *)
Variables (X : list (list R)) (ys : list R).

(** [rand.randint(0, n)]. *)
Definition randint (n : Z) : M Z :=
  fun s => if (n <=? 0)%Z then (Err ValueError, s) else (Ok (rnd (r_draws s) n), mkR (S (r_draws s)) (r_evals s)).

(** [np.round(y) == y]. *)
Definition is_integer (a : R) : bool := Reqb (IZR (Int_part a)) a.
(** Line 175: [int(y.max()) + 1]. *)
Definition n_classes : Z := match ys with [] => 0%Z | a :: l => (Int_part (fold_left Rmax l a) + 1)%Z end.
(** Line 176: [class_indices[c]]. *)
Definition class_indices (c : Z) : list nat := np_where (map (fun a => Reqb a (IZR c)) ys).

(** Lines 187-189. *)
Fixpoint draw_other (fuel : nat) (class1 : Z) : M Z :=
  match fuel with
  | 0%nat => raise OutOfFuel
  | S fuel' => c <- randint n_classes ;; if (c =? class1)%Z then draw_other fuel' class1 else ret c
  end.
(** Lines 183-191: two lists of rows, both non-empty. *)
Fixpoint draw_classes (fuel inner : nat) : M (list nat * list nat) :=
  match fuel with
  | 0%nat => raise OutOfFuel
  | S fuel' =>
      class1 <- randint n_classes ;;
      class2 <- draw_other inner class1 ;;
      let i1 := class_indices class1 in
      let i2 := class_indices class2 in
      if (length i1 =? 0)%nat || (length i2 =? 0)%nat then draw_classes fuel' inner else ret (i1, i2)
  end.
(** Lines 180-203. *)
Definition two_point_step (fuel : nat) : M unit :=
  ii <- draw_classes fuel fuel ;;
  k1 <- randint (Z.of_nat (length (fst ii))) ;;
  k2 <- randint (Z.of_nat (length (snd ii))) ;;
  let p1 := nth (nth (Z.to_nat k1) (fst ii) 0%nat) X [] in
  let p2 := nth (nth (Z.to_nat k2) (snd ii) 0%nat) X [] in
  let normal := map2 Rminus p2 p1 in
  let normal := if Rltb (nth 0 normal 0) 0 then map (fun a => a * -1) normal else normal in
  _ <- evaluate obj normal ;; ret tt.

(** Lines 164-203. *)
Definition two_point_solve (n_mc fuel : nat) : M unit :=
  if existsb (fun a => negb (is_integer a)) ys then raise TypeError
  else if (length (nodup Req_EM_T ys) <=? 1)%nat then ret tt
  else for_each (seq 0 n_mc) (fun _ _ => two_point_step fuel) tt.
End TwoPoint.

(** ** The objective the optimizers see (hyperplane_optimization.py:33-88) *)
Section Objective.
Context {P : Type}.
Variables (L : lik R P R) (prec : R) (srt : (nat -> R) -> nat -> list nat).
Variables (X : nat -> list R) (y : nat -> R) (n_dim lvl : nat) (prior : P) (rows : list nat) (ns : R).

(** The value returned for a hyperplane normal.  It does not depend on earlier evaluations ([OptimLemmas.compute_value_any]). *)
Definition vector_value (v : list R) : R :=
  let G := geo_R (fun c => c) prec srt in - snd (opt_compute G L X y n_dim lvl prior rows ns (opt_init G ns) v).
(** [search_space_is_unit_hypercube = False] and [= True]. *)
Definition vector_obj (v : list R) : res R := Ok (vector_value v).
(** An integer array is not divided in place: line 44 raises a TypeError. *)
Definition integer_obj (v : list R) : res R := Err TypeError.
Definition cube_obj (p : list R) : res R := let! v := sphere true p in Ok (vector_value v).
End Objective.
