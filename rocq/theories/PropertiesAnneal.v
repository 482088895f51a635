(** * Properties of the points the optimizers evaluate: C72 and C73. *)
From Coq Require Import Reals Lra.
From Verif Require Import Prelude Tree Perp RealOps Clf Reg Api Hyper Spec OptProofs Sphere Optim OptimProofs OptimLemmas AnnealSpec AnnealProofs SequenceProofs Witness.
Local Open Scope R_scope.

(** ** C72 *)
Theorem C72_annealing rnd obj val n n_scan n_keep spread fuel : (forall k, 0 <= rnd k < 1) ->
  (forall p, length p = n -> Forall (fun u => 0 <= u <= 1) p -> obj p = Ok (val p)) ->
  let r := sa_solve rnd obj n n_scan n_keep spread fuel start_state in
  fst r = Ok tt -> exists T, annealing_run rnd val n n_scan n_keep spread (points r) T.
Proof. exact (annealing_trace rnd obj val n n_scan n_keep spread fuel). Qed.
Print Assumptions C72_annealing.
(** Every point after the scan is close to an earlier one that was among the best so far. *)
Theorem C72_near rnd obj val n n_scan n_keep spread fuel : (forall k, 0 <= rnd k < 1) ->
  (forall p, length p = n -> Forall (fun u => 0 <= u <= 1) p -> obj p = Ok (val p)) ->
  let r := sa_solve rnd obj n n_scan n_keep spread fuel start_state in
  fst r = Ok tt -> forall t i, (i < n_keep)%nat -> (n_scan + n_keep * t + i < length (points r))%nat ->
  let m := (n_scan + n_keep * t + i)%nat in let old := map val (before n_scan n_keep (points r) t) in
  exists c, In c (firstn m (points r)) /\ (rank old (val c) <= i)%nat /\ near (Rabs spread ^ t) c (nth m (points r) []).
Proof. exact (annealing_near rnd obj val n n_scan n_keep spread fuel). Qed.
Print Assumptions C72_near.
(** The best point was found at least 50 rounds before the end. *)
Theorem C72_best rnd obj val n n_scan n_keep spread fuel : (forall k, 0 <= rnd k < 1) ->
  (forall p, length p = n -> Forall (fun u => 0 <= u <= 1) p -> obj p = Ok (val p)) ->
  let r := sa_solve rnd obj n n_scan n_keep spread fuel start_state in
  fst r = Ok tt -> (n_keep * 50 <= length (points r))%nat /\
  forall p, In p (points r) -> exists q, In q (firstn (length (points r) - n_keep * 50) (points r)) /\ val q <= val p.
Proof. exact (annealing_best rnd obj val n n_scan n_keep spread fuel). Qed.
Print Assumptions C72_best.
(** The objective of a tree meets the hypotheses, and the run ends. *)
Theorem C72_objective {P} (L : lik R P R) prec srt X y n_dim lvl prior rows ns n : sorts Rleb srt -> (0 < n)%nat ->
  exists bound, forall rnd n_scan n_keep spread fuel, (forall k, 0 <= rnd k < 1) -> (0 < n_scan)%nat -> (0 < n_keep)%nat -> (bound <= fuel)%nat ->
  let obj := cube_obj L prec srt X y n_dim lvl prior rows ns in
  let r := sa_solve rnd obj n n_scan n_keep spread fuel start_state in
  fst r = Ok tt /\ exists T, (T <= bound)%nat /\ annealing_run rnd (fun p => match obj p with Ok v => v | Err _ => 0 end) n n_scan n_keep spread (points r) T.
Proof. exact (annealing_objective L prec srt X y n_dim lvl prior rows ns n). Qed.
Print Assumptions C72_objective.
Example C72_case : sorts Rleb sort_R /\ (forall k : nat, 0 <= (fun _ => 1 / 2) k < 1) /\
  rank [3; 1; 3; 2] 3 = 2%nat /\ n_distinct [3; 1; 3; 2] = 3%nat /\
  improved (fun p : list R => nth 0 p 0) 2 1 [[1]; [1 / 2]; [1 / 4]] 0 /\ ~ improved (fun p : list R => nth 0 p 0) 2 1 [[1]; [1 / 2]; [1 / 2]] 0.
Proof.
  split; [exact sort_R_sorts|]. split; [intros _; cbn; lra|]. split; [|split; [|split]].
  - unfold rank. cbn [filter]. repeat (destruct (Rlt_dec _ _); try lra). cbn [nodup]. destruct (in_dec Req_EM_T 1 [2]) as [[H|[]]|_]; [lra|]. reflexivity.
  - unfold n_distinct. cbn [nodup]. destruct (in_dec Req_EM_T 3 [1; 3; 2]) as [_|H]; [|exfalso; apply H; cbn; auto].
    destruct (in_dec Req_EM_T 1 [3; 2]) as [[H|[H|[]]]|_]; try lra. destruct (in_dec Req_EM_T 3 [2]) as [[H|[]]|_]; [lra|]. reflexivity.
  - exists [1 / 4]. split; [now left|]. intros q [<-|[<-|[]]]; cbn; lra.
  - intros (p & [<-|[]] & H). specialize (H [1 / 2] (or_intror (or_introl eq_refl))). cbn in H. lra.
Qed.

(** ** C73 *)
(** Coordinate [j] of point [i] is the fractional part of [1/2 + (i+1)/phi^(j+1)]. *)
Theorem C73_quasi obj phi n m : (0 < n)%nat -> (forall p, length p = n -> Forall (fun u => 0 <= u <= 1) p -> exists v, obj p = Ok v) ->
  let r := quasi_solve obj phi n m start_state in
  fst r = Ok tt /\ length (points r) = m /\ forall i, (i < m)%nat -> length (nth i (points r) []) = n /\
    forall j, (j < n)%nat -> let x := nth j (nth i (points r) []) 0 in
      0 <= x < 1 /\ exists z : Z, x + IZR z = 1 / 2 + INR (i + 1) / phi ^ (j + 1).
Proof. exact (quasi_sequence obj phi n m). Qed.
Print Assumptions C73_quasi.
(** In exact arithmetic the sequence never repeats: the first coordinates are pairwise different. *)
Theorem C73_quasi_distinct obj phi n m : (0 < n)%nat -> (forall p, length p = n -> Forall (fun u => 0 <= u <= 1) p -> exists v, obj p = Ok v) ->
  0 < phi -> phi ^ (n + 1) = phi + 1 -> let r := quasi_solve obj phi n m start_state in
  forall i k, (i < k < m)%nat -> nth 0 (nth i (points r) []) 0 <> nth 0 (nth k (points r) []) 0.
Proof. exact (quasi_distinct obj phi n m). Qed.
Print Assumptions C73_quasi_distinct.
(** Consecutive normal draws, each used once. *)
Theorem C73_random obj nrm n n_mc : (forall p, length p = n -> exists v, obj p = Ok v) ->
  let r := random_solve obj nrm n n_mc start_state in
  fst r = Ok tt /\ length (points r) = n_mc /\ concat (points r) = map nrm (seq 0 (n * n_mc)) /\ Forall (fun p => length p = n) (points r).
Proof. exact (random_sequence obj nrm n n_mc). Qed.
Print Assumptions C73_random.
(** A run of the two-point optimizer that returns has evaluated [n_mc] normals, or none if the targets are all equal. *)
Theorem C73_two_point rnd obj X ys n_mc fuel : let r := two_point_solve rnd obj X ys n_mc fuel start_state in
  fst r = Ok tt -> length (points r) = if (length (nodup Req_EM_T ys) <=? 1)%nat then 0%nat else n_mc.
Proof. exact (two_point_count rnd obj X ys n_mc fuel). Qed.
Print Assumptions C73_two_point.
(** The golden ratio is the value for one dimension. *)
Example C73_case : let phi := (1 + sqrt 5) / 2 in 0 < phi /\ phi ^ (1 + 1) = phi + 1 /\
  fst (two_point_solve (fun _ _ => 0%Z) (fun _ => Ok 0) [[1]; [2]] [1; 1] 3 0 start_state) = Ok tt.
Proof.
  pose proof (sqrt_pos 5). pose proof (sqrt_sqrt 5 ltac:(lra)). split; [lra|]. split; [cbn; nra|].
  rewrite (OptimPairs.two_point_constant (fun _ _ => 0%Z) (fun _ => Ok 0) [[1]; [2]] [1; 1] 3 0); [reflexivity| |].
  - repeat constructor; exists 1%Z; reflexivity.
  - intros a b [<-|[<-|[]]] [<-|[<-|[]]]; reflexivity.
Qed.
