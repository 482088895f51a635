(** * Properties of the hyperplane optimizers: C39-C42 and C57-C60.

    The random generators are arbitrary streams: [rnd k] is the [k]-th uniform draw, [rnd k n] the [k]-th draw if it is made from
    [0..n-1].  [points r] are the points a run passed to the objective, in order. *)
From Coq Require Import Reals Lra.
From Verif Require Import Prelude Tree Perp RealOps Clf Reg Api Hyper Spec OptProofs HyperSpec Sphere SphereProofs.
From Verif Require Import Optim OptimProofs OptimLemmas OptimPairs OptimFit OptimSpec OptimFitProofs Witness HyperExec HyperWitness OptimWitness.
Local Open Scope R_scope.

(** ** C39 *)
Theorem C39_unit_length half U : Forall (fun u => 0 <= u <= 1) U -> U <> [] ->
  norm (sphere_raw half U) = 1 /\ exists v, sphere half U = Ok v /\ length v = (1 + length U)%nat /\
    vsum (map (fun a => a ^ 2) v) = 1 /\ (half = true -> 0 <= nth 0 v 0) /\ unit_vec v = v.
Proof. exact (sphere_unit half U). Qed.
Print Assumptions C39_unit_length.
Theorem C39_onto half v : (2 <= length v)%nat -> vsum (map (fun a => a ^ 2) v) = 1 -> (half = true -> 0 <= nth 0 v 0) ->
  exists U, Forall (fun u => 0 <= u <= 1) U /\ (1 + length U = length v)%nat /\ sphere half U = Ok v.
Proof. exact (sphere_reaches half v). Qed.
Print Assumptions C39_onto.
Theorem C39_orientations v : (2 <= length v)%nat -> vsum (map (fun a => a ^ 2) v) = 1 ->
  exists U, Forall (fun u => 0 <= u <= 1) U /\ (sphere true U = Ok v \/ sphere true U = Ok (map Ropp v)).
Proof. exact (sphere_orientations v). Qed.
Print Assumptions C39_orientations.
Theorem C39_outside_rejected half U : ~ Forall (fun u => 0 <= u <= 1) U -> sphere half U = Err AssertionError.
Proof. exact (sphere_outside half U). Qed.
Print Assumptions C39_outside_rejected.
Example C39_case : (Forall (fun u => 0 <= u <= 1) [1 / 2; 1 / 4; 0] /\ [1 / 2; 1 / 4; 0] <> []) /\
  (vsum (map (fun a => a ^ 2) [2 / 3; -1 / 3; 2 / 3]) = 1 /\ 0 <= nth 0 [2 / 3; -1 / 3; 2 / 3] 0) /\ ~ Forall (fun u => 0 <= u <= 1) [1 / 2; 2].
Proof.
  split; [split; [repeat constructor; lra|discriminate]|]. split; [cbn; lra|]. intros H. inversion H as [|? ? _ H1]. inversion H1. lra.
Qed.

(** ** C40 *)
Theorem C40_annealing_inside rnd obj n n_scan n_keep spread fuel : (forall k, 0 <= rnd k < 1) ->
  forall p, In p (points (sa_solve rnd obj n n_scan n_keep spread fuel start_state)) -> length p = n /\ Forall (fun u => 0 <= u <= 1) p.
Proof. exact (sa_points rnd obj n n_scan n_keep spread fuel). Qed.
Print Assumptions C40_annealing_inside.
Theorem C40_quasi_inside obj phi n m :
  forall p, In p (points (quasi_solve obj phi n m start_state)) -> length p = n /\ Forall (fun u => 0 <= u <= 1) p.
Proof. exact (quasi_points obj phi n m). Qed.
Print Assumptions C40_quasi_inside.
(** The hypotheses have instances, and points are evaluated. *)
Example C40_case : (forall k : nat, 0 <= (fun _ => 1 / 2) k < 1) /\
  points (sa_solve (fun _ => 1 / 2) (fun _ => Ok 0) 2 1 1 1 1 start_state) = [[0 + (1 - 0) * (1 / 2); 0 + (1 - 0) * (1 / 2)]] /\
  points (quasi_solve (fun _ => Ok 0) 2 2 1 start_state) = [r2_point 2 2 0].
Proof. split; [intros _; cbn; lra|]. split; reflexivity. Qed.

(** ** C41 *)
Theorem C41_two_classes rnd obj X ys n_mc fuel : (forall k n, (0 < n)%Z -> (0 <= rnd k n < n)%Z) ->
  forall v, In v (points (two_point_solve rnd obj X ys n_mc fuel start_state)) ->
  exists i j a b, nth_error ys i = Some a /\ nth_error ys j = Some b /\ a <> b /\
    (v = map2 Rminus (nth j X []) (nth i X []) \/ v = map Ropp (map2 Rminus (nth j X []) (nth i X []))) /\ 0 <= nth 0 v 0.
Proof. exact (fun H => two_point_points rnd obj X ys H n_mc fuel). Qed.
Print Assumptions C41_two_classes.
(** No stream makes the loop stop if exactly one non-negative value occurs among the (at least two) integer targets. *)
Theorem C41_never_ends rnd obj X ys n_mc fuel s : (forall k n, (0 < n)%Z -> (0 <= rnd k n < n)%Z) ->
  Forall (fun a => exists z, a = IZR z) ys -> (exists a b, In a ys /\ In b ys /\ a <> b) -> (0 < n_mc)%nat ->
  (exists a, In a ys /\ 0 <= a) -> (forall a b, In a ys -> In b ys -> 0 <= a -> 0 <= b -> a = b) ->
  fst (two_point_solve rnd obj X ys n_mc fuel s) = Err OutOfFuel.
Proof. exact (fun H => two_point_never rnd obj X ys H n_mc fuel s). Qed.
Print Assumptions C41_never_ends.
Theorem C41_negative rnd obj X ys n_mc fuel s : Forall (fun a => exists z, a = IZR z) ys -> (exists a b, In a ys /\ In b ys /\ a <> b) ->
  (0 < n_mc)%nat -> (0 < fuel)%nat -> (forall a, In a ys -> a < 0) -> fst (two_point_solve rnd obj X ys n_mc fuel s) = Err ValueError.
Proof. exact (two_point_negative rnd obj X ys n_mc fuel s). Qed.
Print Assumptions C41_negative.
Theorem C41_not_integer rnd obj X ys n_mc fuel s :
  (exists a, In a ys /\ forall z, a <> IZR z) -> two_point_solve rnd obj X ys n_mc fuel s = (Err TypeError, s).
Proof. exact (two_point_targets rnd obj X ys n_mc fuel s). Qed.
Print Assumptions C41_not_integer.
Theorem C41_one_class rnd obj X ys n_mc fuel s : Forall (fun a => exists z, a = IZR z) ys -> (forall a b, In a ys -> In b ys -> a = b) ->
  two_point_solve rnd obj X ys n_mc fuel s = (Ok tt, s).
Proof. exact (two_point_constant rnd obj X ys n_mc fuel s). Qed.
Print Assumptions C41_one_class.
Theorem C41_ends rnd obj X ys n_mc s : (forall k n, (0 < n)%Z -> (0 <= rnd k n < n)%Z) ->
  (forall k, exists K a b, (k <= K)%nat /\ a <> b /\ (0 <= a)%Z /\ In (IZR a) ys /\ In (IZR b) ys /\
     rnd K (n_classes ys) = a /\ rnd (K + 1)%nat (n_classes ys) = b /\ rnd (K + 2)%nat (n_classes ys) = a /\ rnd (K + 3)%nat (n_classes ys) = b) ->
  (forall v, exists z, obj v = Ok z) -> Forall (fun a => exists z, a = IZR z) ys ->
  exists bound s', forall fuel, (bound <= fuel)%nat -> two_point_solve rnd obj X ys n_mc fuel s = (Ok tt, s').
Proof. exact (fun H => two_point_ends rnd obj X ys H n_mc s). Qed.
Print Assumptions C41_ends.
Example C41_case : (forall k n, (0 < n)%Z -> (0 <= fair_stream k n < n)%Z) /\ fair fair_stream /\
  (forall k, exists K a b, (k <= K)%nat /\ a <> b /\ (0 <= a)%Z /\ In (IZR a) [0; 1; 1] /\ In (IZR b) [0; 1; 1] /\
     fair_stream K (n_classes [0; 1; 1]) = a /\ fair_stream (K + 1)%nat (n_classes [0; 1; 1]) = b /\
     fair_stream (K + 2)%nat (n_classes [0; 1; 1]) = a /\ fair_stream (K + 3)%nat (n_classes [0; 1; 1]) = b).
Proof. exact two_point_case. Qed.
Example C41_never_case : Forall (fun a => exists z, a = IZR z) [-1; 0; -1] /\ (exists a b, In a [-1; 0; -1] /\ In b [-1; 0; -1] /\ a <> b) /\
  (exists a, In a [-1; 0; -1] /\ 0 <= a) /\ (forall a b, In a [-1; 0; -1] -> In b [-1; 0; -1] -> 0 <= a -> 0 <= b -> a = b).
Proof. exact never_case. Qed.

(** ** C42 *)
Theorem C42_annealing_ends {P} (L : lik R P R) prec srt X y n_dim lvl prior rows ns n : sorts Rleb srt -> (0 < n)%nat ->
  exists bound, forall rnd n_scan n_keep spread fuel, (forall k, 0 <= rnd k < 1) -> (0 < n_scan)%nat -> (0 < n_keep)%nat -> (bound <= fuel)%nat ->
  let r := sa_solve rnd (cube_obj L prec srt X y n_dim lvl prior rows ns) n n_scan n_keep spread fuel start_state in
  fst r = Ok tt /\ (length (points r) <= n_scan + n_keep * bound)%nat.
Proof. exact (sa_terminates L prec srt X y n_dim lvl prior rows ns n). Qed.
Print Assumptions C42_annealing_ends.
Example C42_case : sorts Rleb sort_R /\ forall k : nat, 0 <= (fun _ => 1 / 2) k < 1.
Proof. split; [exact sort_R_sorts|intros _; cbn; lra]. Qed.

(** ** C57: false of the code *)
Theorem C57_one_feature_refuted {P} (L : lik R P R) post same srt o fuel (h : hyper P) (d : hset (list R) R) :
  in_hypercube o = true -> hs_dim d = 1%nat -> (0 < fuel)%nat ->
  match o with SimulatedAnnealing _ n _ _ | GradientDescent _ n _ | QuasiRandom _ n => (0 < n)%nat | _ => True end ->
  hyper_fit_opt L post same srt o fuel h d = Err ValueError.
Proof. exact (opt_fit_one_feature L post same srt o fuel h d). Qed.
Print Assumptions C57_one_feature_refuted.
Example C57_case : in_hypercube (QuasiRandom 2 10) = true /\ proper (QuasiRandom 2 10) /\ hset_ok hreg_set /\ hs_dim hreg_set = 1%nat.
Proof. split; [reflexivity|]. split; [exact I|]. split; [apply (hreg_set_ok 0 false)|reflexivity]. Qed.

(** ** C58 *)
Theorem C58_descent_inside rnd obj n n_init n_keep fuel : (forall k, 0 <= rnd k < 1) ->
  forall p, In p (points (gd_solve rnd obj n n_init n_keep fuel start_state)) -> length p = n /\ Forall (fun u => 0 <= u <= 1) p.
Proof. exact (gd_points rnd obj n n_init n_keep fuel). Qed.
Print Assumptions C58_descent_inside.
Theorem C58_descent_ends {P} (L : lik R P R) prec srt X y n_dim lvl prior rows ns n : sorts Rleb srt -> (0 < n)%nat ->
  forall rnd n_init n_keep, (forall k, 0 <= rnd k < 1) -> (0 < n_init)%nat -> (0 < n_keep)%nat ->
  exists bound, forall fuel, (bound <= fuel)%nat ->
    fst (gd_solve rnd (cube_obj L prec srt X y n_dim lvl prior rows ns) n n_init n_keep fuel start_state) = Ok tt.
Proof. exact (gd_terminates L prec srt X y n_dim lvl prior rows ns n). Qed.
Print Assumptions C58_descent_ends.
Example C58_case : sorts Rleb sort_R /\ (forall k : nat, 0 <= (fun _ => 1 / 2) k < 1) /\
  points (gd_solve (fun _ => 1 / 2) (fun _ => Ok 0) 1 1 1 1 start_state) <> [].
Proof. exact descent_case. Qed.

(** ** C59: false of the code *)
Theorem C59_integer_matrix_refuted rnd X ys n_mc fuel s : Forall (fun a => exists z, a = IZR z) ys -> (exists a b, In a ys /\ In b ys /\ a <> b) ->
  (0 < n_mc)%nat -> fst (two_point_solve rnd integer_obj X ys n_mc fuel s) <> Ok tt.
Proof. exact (two_point_integer_matrix rnd integer_obj X ys n_mc fuel s (fun v => ex_intro _ TypeError eq_refl)). Qed.
Print Assumptions C59_integer_matrix_refuted.
Example C59_case : Forall (fun a => exists z, a = IZR z) [0; 1; 1] /\ exists a b, In a [0; 1; 1] /\ In b [0; 1; 1] /\ a <> b.
Proof. exact integer_case. Qed.

(** ** C60 *)
Theorem C60_fit_ends srt o (h : hyper (list R)) d : sorts Rleb srt -> proper o -> hset_ok d -> usable o d ->
  exists bound t cands, (forall fuel, (bound <= fuel)%nat -> hclf_fit_opt srt o fuel h d = Ok t) /\
    cands_ok (normal_of o) cands (hs_dim d) /\ hclf_fit (normal_of o) srt cands h d = Ok t.
Proof. exact (clf_opt_fit srt o h d). Qed.
Print Assumptions C60_fit_ends.
Theorem C60_fit_ends_reg srt o (h : hyper ng) d : sorts Rleb srt -> proper o -> hset_ok d -> usable o d ->
  exists bound t cands, (forall fuel, (bound <= fuel)%nat -> hreg_fit_opt srt o fuel h d = Ok t) /\
    cands_ok (normal_of o) cands (hs_dim d) /\ hreg_fit (normal_of o) srt cands h d = Ok t.
Proof. exact (reg_opt_fit srt o h d). Qed.
Print Assumptions C60_fit_ends_reg.
(** Whatever the fuel, a tree that is returned is a tree of the fit with given candidates. *)
Theorem C60_fit_is_fit srt o fuel (h : hyper (list R)) d t : proper o -> hset_ok d -> (in_hypercube o = true -> (2 <= hs_dim d)%nat) ->
  hclf_fit_opt srt o fuel h d = Ok t ->
  exists cands, cands_ok (normal_of o) cands (hs_dim d) /\ hclf_fit (normal_of o) srt cands h d = Ok t.
Proof. exact (fun Ho Hd H2 => opt_fit_cands _ _ _ srt o h d Ho Hd H2 fuel t). Qed.
Print Assumptions C60_fit_is_fit.
Theorem C60_fit_is_fit_reg srt o fuel (h : hyper ng) d t : proper o -> hset_ok d -> (in_hypercube o = true -> (2 <= hs_dim d)%nat) ->
  hreg_fit_opt srt o fuel h d = Ok t ->
  exists cands, cands_ok (normal_of o) cands (hs_dim d) /\ hreg_fit (normal_of o) srt cands h d = Ok t.
Proof. exact (fun Ho Hd H2 => opt_fit_cands _ _ _ srt o h d Ho Hd H2 fuel t). Qed.
Print Assumptions C60_fit_is_fit_reg.
(** Given normals, three classes in the plane: a tree with two levels of splits. *)
Example C60_case delta prn : let o := RandomHyperplane hx1_nrm 3 in
  proper o /\ usable o (hsetR hx1) /\
  exists t, (forall fuel, hclf_fit_opt sort_R o fuel (hx1_h delta prn) (hsetR hx1) = Ok t) /\ height t = 2%nat /\ length (leaves t) = 3%nat.
Proof. exact (hx1_random delta prn). Qed.
Example C60_all_optimizers : hset_ok (hsetR hx1) /\
  Forall (fun o => proper o /\ usable o (hsetR hx1))
    [SimulatedAnnealing (fun _ => 1 / 2) 10 3 (9 / 10); GradientDescent (fun _ => 1 / 2) 10 3; QuasiRandom 2 10;
     RandomHyperplane (fun _ => 1) 10; RandomTwoPoint fair_stream 10].
Proof. exact all_usable. Qed.
