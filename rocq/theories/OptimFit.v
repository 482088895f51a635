(** * OptimFit: fitting a hyperplane tree with one of the optimizers of the package.

    [Hyper.hfit] takes the candidates evaluated at each node as given.  Here each node runs an optimizer
    (base_hyperplane.py:38-61), which may fail or not stop. *)
From Coq Require Import Reals.
From Verif Require Import Prelude Tree Perp RealOps Clf Reg Api Hyper Sphere Optim.
Local Open Scope nat_scope.

Section Fit.
Context {W C N O J E Y P S : Type}.
Variable G : geo W C N O J E.
Variable L : lik Y P S.
Variable post : R -> P -> list Y -> P.
Variable X : nat -> W.
Variable y : nat -> Y.
Variable n_dim : nat.
(** [solve lvl prior rows no_split]: the points evaluated by [optimizer.solve(optimization_function)]. *)
Variable solve : nat -> P -> list nat -> S -> res (list C).

(** base_hyperplane.py:22-121; as [Hyper.hfit]. *)
Fixpoint hfit_with (fuel lvl : nat) (pa : option P) (rows : list nat) : res (tree (plane N O) S P) :=
  match fuel with
  | 0 => Err OutOfFuel
  | Datatypes.S fuel' =>
      let n_data := length rows in
      let prior := l_prior L pa n_data n_dim in
      let ys := map y rows in
      let no_split := l_no_split L lvl prior ys in
      let! cs := solve lvl prior rows no_split in
      let st := opt_run G L X y n_dim lvl prior rows no_split cs in
      let inf := mkInfo pa lvl n_data (Some n_dim) (l_post L prior ys) in
      match o_plane st with
      | None => Ok (Leaf inf)
      | Some pl =>
          let rows1 := filter (fun i => g_back G (p_normal pl) (p_origin pl) (X i)) rows in
          let rows2 := filter (fun i => g_front G (p_normal pl) (p_origin pl) (X i)) rows in
          if (0 <? length rows1) && (0 <? length rows2) then
            let prior1 := post 0 prior (map y rows1) in
            let prior2 := post 0 prior (map y rows2) in
            let child (prior_c : P) (rows_c : list nat) :=
              let ys_c := map y rows_c in
              if (1 <? length rows_c) && l_many L ys_c
              then hfit_with fuel' (lvl + 1) (Some prior_c) rows_c
              else Ok (Leaf (mkInfo (Some prior_c) (lvl + 1) (length rows_c) None (l_post L prior ys_c))) in
            let! c1 := child prior1 rows1 in
            let! c2 := child prior2 rows2 in
            Ok (Split inf pl no_split (o_best st) c1 c2)
          else Ok (Leaf inf)
      end
  end.
End Fit.

(** The optimizers with their random draws.  The generator is created anew, from the same seed, in every call of [solve],
    so all nodes see the same stream.
    Not modelled: [ScipyOptimizer] and [OptunaOptimizer], which run code of other packages. *)
Inductive optimizer :=
| SimulatedAnnealing (rnd : nat -> R) (n_scan n_keep : nat) (spread : R)
| GradientDescent (rnd : nat -> R) (n_init n_keep : nat)
| QuasiRandom (phi : R) (n : nat)
| RandomHyperplane (nrm : nat -> R) (n_mc : nat)
| RandomTwoPoint (rnd : nat -> Z -> Z) (n_mc : nat).

(** [search_space_is_unit_hypercube]: lines 152, 214, 238, 288, 351. *)
Definition in_hypercube (o : optimizer) : bool :=
  match o with SimulatedAnnealing _ _ _ _ | GradientDescent _ _ _ | QuasiRandom _ _ => true | _ => false end.

(** [optimizer.solve] for the objective on the unit hypercube, resp. on vectors. *)
Definition run_optimizer (o : optimizer) (cube vec : list R -> res R) (n_dim : nat) (X : list (list R)) (ys : list R) (fuel : nat) : M unit :=
  match o with
  | SimulatedAnnealing rnd n_scan n_keep spread => sa_solve rnd cube (n_dim - 1) n_scan n_keep spread fuel
  | GradientDescent rnd n_init n_keep => gd_solve rnd cube (n_dim - 1) n_init n_keep fuel
  | QuasiRandom phi n => quasi_solve cube phi (n_dim - 1) n
  | RandomHyperplane nrm n_mc => random_solve vec nrm n_dim n_mc
  | RandomTwoPoint rnd n_mc => two_point_solve rnd vec X ys n_mc fuel
  end.

(** hyperplane_optimization.py:36-37; only used where [sphere] does not fail. *)
Definition normal_of (o : optimizer) (c : list R) : list R :=
  if in_hypercube o then match sphere true c with Ok v => v | Err _ => [] end else c.

Section Solve.
Context {P : Type}.
Variables (L : lik R P R) (prec : R) (srt : (nat -> R) -> nat -> list nat) (X : nat -> list R) (y : nat -> R) (n_dim : nat).
Variables (o : optimizer) (fuel : nat).

(** One call of [solve], for the training rows [rows]. *)
Definition solve_node (lvl : nat) (prior : P) (rows : list nat) (ns : R) : res (list (list R)) :=
  let cube := cube_obj L prec srt X y n_dim lvl prior rows ns in
  let vec := vector_obj L prec srt X y n_dim lvl prior rows ns in
  let r := run_optimizer o cube vec n_dim (map X rows) (map y rows) fuel (mkR 0 []) in
  let! _ := fst r in Ok (rev (r_evals (snd r))).
End Solve.

(** [fit] after validation (base.py:68-74), with the given optimizer; [fuel] bounds the loops of the optimizer. *)
Definition hyper_fit_opt {P} (L : lik R P R) (post : R -> P -> list R -> P) (same : ninfo P -> ninfo P -> bool)
    (srt : (nat -> R) -> nat -> list nat) (o : optimizer) (fuel : nat) (h : hyper P) (d : hset (list R) R)
    : res (tree (plane (list R) (list R)) R P) :=
  let! t := hfit_with (geo_R (normal_of o) (h_prec h) srt) L post (hs_X d) (hs_y d) (hs_dim d)
              (solve_node L (h_prec h) srt (hs_X d) (hs_y d) (hs_dim d) o fuel)
              (Datatypes.S (hs_n d)) 0 (h_prior h) (seq 0 (hs_n d)) in
  if h_prune h then prune same t else Ok t.
Definition hclf_fit_opt srt o fuel (h : hyper (list R)) (d : hset (list R) R) : res hctree :=
  hyper_fit_opt (clf_lik (h_pp h) (h_delta h)) clf_posterior clf_same srt o fuel h d.
Definition hreg_fit_opt srt o fuel (h : hyper ng) (d : hset (list R) R) : res hrtree :=
  hyper_fit_opt (reg_lik (h_pp h) (h_delta h)) reg_posterior reg_same srt o fuel h d.
