(** * OptimLemmas: the objective takes finitely many values; the other optimizers. *)
From Coq Require Import Reals Lra Permutation Sorted.
From Verif Require Import Prelude Tree Perp RealOps Clf Reg Api Hyper Sphere SphereProofs OptProofs Optim OptimProofs OptimDescent.
Local Open Scope R_scope.

(** ** Finitely many values *)
Fixpoint all_lists {A} (l : list A) (m : nat) : list (list A) :=
  match m with
  | 0%nat => [[]]
  | S m' => flat_map (fun a => map (cons a) (all_lists l m')) l
  end.
Lemma all_lists_In {A} (l : list A) w : incl w l -> In w (all_lists l (length w)).
Proof.
  induction w as [|a w IH]; intros H; cbn; [now left|]. apply in_flat_map. exists a. split; [apply H; now left|].
  apply in_map, IH. intros z Hz. apply H. now right.
Qed.
Lemma adjacent_length {A} (g : A -> A -> bool) l : length (adjacent g l) = (length l - 1)%nat.
Proof. induction l as [|a [|b l] IH]; cbn in *; auto. rewrite IH. lia. Qed.

Section Values.
Context {P : Type}.
Variables (L : lik R P R) (prec : R) (srt : (nat -> R) -> nat -> list nat).
Variables (X : nat -> list R) (y : nat -> R) (n_dim lvl : nat) (prior : P) (rows : list nat) (ns : R).

(** The value in terms of the order of the rows and of the mask of different neighbours. *)
Definition value_of (order : list nat) (mask : list bool) : R :=
  match map (fun k => (1 + k)%nat) (np_where mask) with
  | [] => ns
  | ks =>
      let log_p := l_split L lvl prior n_dim (map (fun k => y (nth k rows 0%nat)) order) ks in
      match nth_error log_p (l_argmax L log_p), nth_error ks (l_argmax L log_p) with
      | Some s, Some _ => s
      | _, _ => ns
      end
  end.
Lemma compute_value {C} (pre : C -> list R) st c : let G := geo_R pre prec srt in
  snd (opt_compute G L X y n_dim lvl prior rows ns st c) =
    value_of (srt (fun k => dot (X (nth k rows 0%nat)) (unit_vec (pre c))) (length rows))
             (adjacent (fun a b => Rgtb (Rabs (b - a)) prec) (map (fun i => dot (X i) (unit_vec (pre c))) rows)).
Proof.
  cbv zeta. unfold opt_compute, value_of, split_positions. cbn [geo_R g_unit g_proj g_argsort g_gap].
  destruct (map _ (np_where _)) as [|k ks]; [reflexivity|].
  destruct (nth_error _ _) as [s|]; [|reflexivity]. destruct (nth_error _ _) as [k'|]; [|reflexivity].
  destruct (l_ge _ _ _); [|reflexivity]. destruct (if l_gt _ _ _ then _ else _); reflexivity.
Qed.
Lemma compute_value_any {C} (pre : C -> list R) st st' c : let G := geo_R pre prec srt in
  snd (opt_compute G L X y n_dim lvl prior rows ns st c) = snd (opt_compute G L X y n_dim lvl prior rows ns st' c).
Proof. cbv zeta. rewrite !compute_value. reflexivity. Qed.

Definition possible_values : list R :=
  flat_map (fun order => map (fun mask => - value_of order mask) (all_lists [true; false] (length rows - 1)))
           (all_lists (seq 0 (length rows)) (length rows)).
Lemma value_possible v : sorts Rleb srt -> In (vector_value L prec srt X y n_dim lvl prior rows ns v) possible_values.
Proof.
  intros Hs. unfold vector_value. rewrite compute_value. unfold possible_values. apply in_flat_map.
  set (key := fun k => dot _ _). destruct (Hs key (length rows)) as [Hp _]. exists (srt key (length rows)). split.
  - replace (length rows) with (length (srt key (length rows))) at 3 by (rewrite (Permutation_length Hp); apply seq_length).
    apply all_lists_In. intros z Hz. eapply Permutation_in; eauto.
  - apply in_map_iff. eexists. split; [reflexivity|].
    match goal with |- In ?m _ => replace (length rows - 1)%nat with (length m) by (rewrite adjacent_length, map_length; reflexivity) end.
    apply all_lists_In. intros [|] _; cbn; auto.
Qed.
Lemma cube_obj_values p : sorts Rleb srt -> p <> [] -> Forall (fun u => 0 <= u <= 1) p ->
  exists v, cube_obj L prec srt X y n_dim lvl prior rows ns p = Ok v /\ In v possible_values.
Proof.
  intros Hs Hp Hc. unfold cube_obj. destruct (sphere_unit true p Hc Hp) as (_ & v & -> & _). cbn [rbind].
  eexists. split; [reflexivity|]. now apply value_possible.
Qed.
End Values.

(** ** Annealing and descent on this objective *)
Definition start_state : rstate := mkR 0 [].
Definition points {A} (r : res A * rstate) : list (list R) := rev (r_evals (snd r)).

Lemma inside_start n : inside n start_state.
Proof. constructor. Qed.

Lemma sa_points rnd obj n n_scan n_keep spread fuel : (forall k, 0 <= rnd k < 1) ->
  forall p, In p (points (sa_solve rnd obj n n_scan n_keep spread fuel start_state)) -> length p = n /\ Forall (fun u => 0 <= u <= 1) p.
Proof.
  intros Hr p Hp. unfold points in Hp. apply in_rev in Hp.
  assert (inside n (snd (sa_solve rnd obj n n_scan n_keep spread fuel start_state))) as H.
  { apply sa_loop_safe; [intros k; specialize (Hr k); lra|apply inside_start|intros v q []]. }
  unfold inside in H. rewrite Forall_forall in H. exact (H p Hp).
Qed.
Lemma gd_points rnd obj n n_init n_keep fuel : (forall k, 0 <= rnd k < 1) ->
  forall p, In p (points (gd_solve rnd obj n n_init n_keep fuel start_state)) -> length p = n /\ Forall (fun u => 0 <= u <= 1) p.
Proof.
  intros Hr p Hp. unfold points in Hp. apply in_rev in Hp.
  assert (inside n (snd (gd_solve rnd obj n n_init n_keep fuel start_state))) as H.
  { unfold gd_solve. change (/ 10 ^ 6) with (tenth (S 5)). apply gd_loop_safe; [intros k; specialize (Hr k); lra|apply inside_start|intros v q []]. }
  unfold inside in H. rewrite Forall_forall in H. exact (H p Hp).
Qed.

Lemma mod1_range x : 0 <= mod1 x < 1.
Proof. unfold mod1. destruct (base_Int_part x). lra. Qed.
Lemma quasi_points obj phi n m :
  forall p, In p (points (quasi_solve obj phi n m start_state)) -> length p = n /\ Forall (fun u => 0 <= u <= 1) p.
Proof.
  intros p Hp. unfold points in Hp. apply in_rev in Hp.
  pose proof (triple_for (seq 0 m) (fun i _ => match n with 0%nat => raise ValueError | _ => _ <- evaluate obj (r2_point phi n i) ;; ret tt end)
    (fun _ _ => inside n) (fun _ => inside n)) as F.
  assert (inside n (snd (quasi_solve obj phi n m start_state))) as H.
  { unfold quasi_solve. specialize (F (fun a l' x _ => ltac:(
      intros s Hs; destruct n as [|n']; [exact Hs|]; unfold bind; cbn [evaluate];
      assert (inside (S n') (mkR (r_draws s) (r2_point phi (S n') a :: r_evals s))) as Hi;
      [constructor; [|exact Hs]; split; [unfold r2_point; now rewrite map_length, seq_length|]; apply Forall_forall; intros u Hu; unfold r2_point in Hu;
       apply in_map_iff in Hu as (j & <- & _); pose proof (mod1_range (1 / 2 + 1 / phi ^ (1 + j) * INR (a + 1))); lra|];
      destruct (obj _); exact Hi)) tt start_state (inside_start n)).
    cbv beta in F. destruct (for_each _ _ _ _) as [[]]; exact F. }
  unfold inside in H. rewrite Forall_forall in H. exact (H p Hp).
Qed.

Section Real.
Context {P : Type}.
Variables (L : lik R P R) (prec : R) (srt : (nat -> R) -> nat -> list nat).
Variables (X : nat -> list R) (y : nat -> R) (n_dim lvl : nat) (prior : P) (rows : list nat) (ns : R).
Notation objective := (cube_obj L prec srt X y n_dim lvl prior rows ns).

Lemma sa_terminates n : sorts Rleb srt -> (0 < n)%nat ->
  exists bound, forall rnd n_scan n_keep spread fuel, (forall k, 0 <= rnd k < 1) -> (0 < n_scan)%nat -> (0 < n_keep)%nat -> (bound <= fuel)%nat ->
  let r := sa_solve rnd objective n n_scan n_keep spread fuel start_state in
  fst r = Ok tt /\ (length (points r) <= n_scan + n_keep * bound)%nat.
Proof.
  intros Hs Hn. set (vals := possible_values L y n_dim lvl prior rows ns). exists (50 * length vals + 52)%nat.
  intros rnd n_scan n_keep spread fuel Hr H1 H2 Hf. cbv zeta.
  destruct (sa_solve_ends rnd objective n n_scan n_keep spread) with (vals := vals) (fuel := fuel) (s := start_state) as (s' & -> & Hl); auto.
  - intros k. specialize (Hr k). lra.
  - intros p [Hp1 Hp2]. apply cube_obj_values; auto. intros ->. cbn in Hp1. lia.
  - apply inside_start.
  - lia.
  - cbn [fst]. split; [reflexivity|]. unfold points. rewrite rev_length. cbn [snd]. cbn [start_state r_evals length] in Hl. nia.
Qed.
Lemma gd_terminates n : sorts Rleb srt -> (0 < n)%nat ->
  forall rnd n_init n_keep, (forall k, 0 <= rnd k < 1) -> (0 < n_init)%nat -> (0 < n_keep)%nat ->
  exists bound, forall fuel, (bound <= fuel)%nat -> fst (gd_solve rnd objective n n_init n_keep fuel start_state) = Ok tt.
Proof.
  intros Hs Hn rnd n_init n_keep Hr H1 H2. set (vals := possible_values L y n_dim lvl prior rows ns).
  destruct (gd_solve_ends rnd objective n n_init n_keep) with (vals := vals) (s := start_state) as (bound & H); auto.
  - intros k. specialize (Hr k). lra.
  - intros p [Hp1 Hp2]. apply cube_obj_values; auto. intros ->. cbn in Hp1. lia.
  - apply inside_start.
  - exists bound. intros fuel Hf. destruct (H fuel Hf) as (s' & ->). reflexivity.
Qed.

(** One feature: the search space has no coordinates. *)
Lemma sa_one_feature rnd n_scan n_keep spread fuel : (0 < n_scan)%nat -> (0 < fuel)%nat ->
  fst (sa_solve rnd objective 0 n_scan n_keep spread fuel start_state) = Err ValueError.
Proof. destruct n_scan; [lia|]. destruct fuel; [lia|]. reflexivity. Qed.
Lemma gd_one_feature rnd n_init n_keep fuel : (0 < n_init)%nat -> (0 < fuel)%nat ->
  fst (gd_solve rnd objective 0 n_init n_keep fuel start_state) = Err ValueError.
Proof. destruct n_init; [lia|]. destruct fuel; [lia|]. reflexivity. Qed.
Lemma quasi_one_feature phi m : (0 < m)%nat -> fst (quasi_solve objective phi 0 m start_state) = Err ValueError.
Proof. destruct m; [lia|]. reflexivity. Qed.
End Real.

Lemma for_each_err {A S} (l : list A) body (x : S) a l' s e : l = a :: l' -> fst (body a x s) = Err e -> fst (for_each l body x s) = Err e.
Proof. intros -> H. cbn. unfold bind. destruct (body a x s) as [[|e'] s1]; cbn in *; congruence. Qed.

(** No candidates. *)
Lemma sa_no_scan rnd obj n n_keep spread fuel s : (0 < fuel)%nat -> fst (sa_solve rnd obj n 0 n_keep spread fuel s) = Err IndexError.
Proof. destruct fuel; [lia|]. intros _. cbn. destruct n_keep; reflexivity. Qed.
Lemma sa_no_keep rnd obj n n_scan spread fuel s : (0 < fuel)%nat -> (forall p, exists v, obj p = Ok v) -> fst (sa_solve rnd obj n n_scan 0 spread fuel s) = Err IndexError.
Proof.
  destruct fuel; [lia|]. intros _ Ho. unfold sa_solve. cbn [sa_loop]. replace (0 <? 50)%nat with true by reflexivity. unfold bind at 1.
  assert (forall l d s, exists d' s', for_each (A := nat) l (fun _ c => p <- uniform rnd 0 1 n ;; v <- evaluate obj p ;; ret (d_set c v p)) d s = (Ok d', s')) as H.
  { induction l as [|a l IH]; intros d s0; cbn [for_each]; [now exists d, s0|]. 
    destruct (Ho (map (fun k => 0 + (1 - 0) * rnd (r_draws s0 + k)%nat) (seq 0 n))) as (v & Ev).
    unfold bind, uniform, evaluate, ret in *. cbn [r_draws r_evals Nat.add] in *. 
rewrite Ev. exact (IH _ _). }
  destruct (H (seq 0 n_scan) [] s) as (d' & s' & E). unfold scan. rewrite E. reflexivity.
Qed.
