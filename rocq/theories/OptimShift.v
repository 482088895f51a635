(** * OptimShift: how the points evaluated by an optimizer depend on the values of the objective (C80). *)
From Coq Require Import Reals Lra.
From Verif Require Import Prelude Tree RealOps Clf Hyper Sphere Optim OptimFit OptimProofs NonfiniteSpec SimilarSpec.
Local Open Scope R_scope.

(** [m'] does what [m] does, with the result mapped by [f]. *)
Definition does {A B} (f : A -> B) (m : M A) (m' : M B) : Prop := forall s, m' s = (map_res f (fst (m s)), snd (m s)).
Lemma does_ret {A B} (f : A -> B) a : does f (ret a) (ret (f a)).
Proof. intros s. reflexivity. Qed.
Lemma does_raise {A B} (f : A -> B) e : does f (raise e) (raise e).
Proof. intros s. reflexivity. Qed.
Lemma does_bind {A B A' B'} (f : A -> A') (h : B -> B') m m' k k' : does f m m' -> (forall a, does h (k a) (k' (f a))) -> does h (bind m k) (bind m' k').
Proof. intros Hm Hk s. unfold bind. rewrite Hm. destruct (m s) as [[a|e] s1]; cbn; auto. apply Hk. Qed.
Lemma does_id {A} (m : M A) : does (fun a => a) m m.
Proof. intros s. destruct (m s) as [[a|e] s1]; reflexivity. Qed.
Lemma does_for {A S S'} (f : S -> S') (l : list A) body body' : (forall a x, In a l -> does f (body a x) (body' a (f x))) ->
  forall x, does f (for_each l body x) (for_each l body' (f x)).
Proof.
  induction l as [|a l IH]; intros H x; cbn [for_each]; [apply does_ret|]. eapply does_bind; [apply H; left; auto|].
  intros y. apply IH. intros b z Hb. apply H. right. auto.
Qed.

Section Order.
Variable g : R -> R.
Hypothesis Hg : forall a b, a < b -> g a < g b.
Variables (obj obj' : list R -> res R).
Hypothesis Hobj : forall p, obj' p = map_res g (obj p).

Lemma g_le a b : g a <= g b <-> a <= b.
Proof.
  split; intros H.
  - destruct (Rle_or_lt a b) as [|N]; auto. apply Hg in N. lra.
  - destruct H as [H| ->]; [apply Hg in H|]; lra.
Qed.
Lemma g_leb a b : Rleb (g a) (g b) = Rleb a b.
Proof. destruct (Rleb a b) eqn:E; [apply Rleb_true in E; apply Rleb_true; apply g_le; auto|]. apply Rleb_false in E. apply Rleb_false. auto. Qed.
Lemma g_ltb a b : Rltb (g a) (g b) = Rltb a b.
Proof. destruct (Rltb a b) eqn:E; [apply Rltb_true in E; apply Rltb_true; auto|]. apply Rltb_false in E. apply Rltb_false. apply g_le; auto. Qed.
Lemma g_inj a b : g a = g b -> a = b.
Proof. intros E. apply Rle_antisym; apply g_le; lra. Qed.
Lemma g_eqb a b : Reqb (g a) (g b) = Reqb a b.
Proof.
  destruct (Reqb a b) eqn:E; [apply Reqb_true in E; apply Reqb_true; congruence|]. destruct (Reqb (g a) (g b)) eqn:E'; auto.
  apply Reqb_true, g_inj in E'. subst. rewrite Reqb_refl in E. discriminate.
Qed.

Definition gd (d : dict) : dict := map (fun e => (g (fst e), snd e)) d.
Lemma gd_keys d : keys (gd d) = map g (keys d).
Proof. unfold gd, keys. rewrite !map_map. auto. Qed.
Lemma gd_set d v p : d_set (gd d) (g v) p = gd (d_set d v p).
Proof. induction d as [|[w q] d IH]; cbn; auto. rewrite g_eqb. destruct (Reqb w v); cbn; auto. unfold gd in IH. rewrite IH. auto. Qed.
Lemma gd_get d v : d_get (gd d) (g v) = d_get d v.
Proof. induction d as [|[w q] d IH]; cbn; auto. rewrite g_eqb. destruct (Reqb w v); auto. Qed.
Lemma g_insert v l : insert_key (g v) (map g l) = map g (insert_key v l).
Proof. induction l as [|w l IH]; cbn; auto. rewrite g_leb. destruct (Rleb v w); cbn; auto. rewrite IH. auto. Qed.
Lemma g_sort l : sort_keys (map g l) = map g (sort_keys l).
Proof. induction l as [|v l IH]; cbn; auto. fold (sort_keys (map g l)). rewrite IH, g_insert. auto. Qed.
Lemma g_nth i l : (i < length l)%nat -> nth i (map g l) 0 = g (nth i l 0).
Proof. intros H. rewrite (nth_indep _ 0 (g 0)) by (rewrite map_length; auto). apply map_nth. Qed.

Lemma evaluate_does p : does g (evaluate obj p) (evaluate obj' p).
Proof. intros s. unfold evaluate. rewrite Hobj. reflexivity. Qed.
Lemma keep_does n_keep best idle c : does (fun r => (fst r, gd (snd r))) (keep_best n_keep best idle c) (keep_best n_keep (option_map g best) idle (gd c)).
Proof.
  unfold keep_best. rewrite gd_keys, g_sort, firstn_map. destruct (firstn n_keep (sort_keys (keys c))) as [|v l]; cbn [map]; [apply does_raise|].
  intros s. unfold ret. cbn [fst snd map_res]. replace (improves (g v) (option_map g best)) with (improves v best).
  2:{ destruct best; cbn; auto. rewrite g_ltb. auto. }
  assert (E : gd ((v, d_get c v) :: map (fun w => (w, d_get c w)) l) = (g v, d_get (gd c) (g v)) :: map (fun w => (w, d_get (gd c) w)) (map g l)).
  { unfold gd at 1. cbn [map fst snd]. rewrite gd_get, !map_map. f_equal. apply map_ext. intros w. rewrite gd_get. auto. }
  rewrite E. reflexivity.
Qed.
Lemma scan_does rnd n_dim n c : does gd (scan rnd obj n_dim n c) (scan rnd obj' n_dim n (gd c)).
Proof.
  unfold scan. apply (does_for gd). intros i x _. eapply does_bind; [apply does_id|]. intros p. cbn beta.
  eapply does_bind; [apply evaluate_does|]. intros v. rewrite gd_set. apply does_ret.
Qed.
Lemma picks n_keep d i : d <> [] -> In i (seq 0 n_keep) -> (i * length (sort_keys (keys d)) / n_keep < length (sort_keys (keys d)))%nat.
Proof.
  intros Hd Hi. apply in_seq in Hi. apply scaled_index; [lia|]. rewrite sort_keys_length. unfold keys. rewrite map_length. destruct d; [congruence|cbn; lia].
Qed.
Lemma evolve_does rnd n_dim n_keep f c : c <> [] -> does gd (evolve rnd obj n_dim n_keep f c) (evolve rnd obj' n_dim n_keep f (gd c)).
Proof.
  intros Hc. unfold evolve. rewrite gd_keys, g_sort, map_length. apply (does_for gd). intros i x Hi.
  rewrite g_nth by (apply picks; auto). rewrite gd_get. eapply does_bind; [apply does_id|]. intros u. cbn beta.
  eapply does_bind; [apply evaluate_does|]. intros v. rewrite gd_set. apply does_ret.
Qed.
Lemma best_does d : d <> [] -> nth 0 (sort_keys (map g (keys d))) 0 = g (nth 0 (sort_keys (keys d)) 0).
Proof. intros Hd. rewrite g_sort. apply g_nth. rewrite sort_keys_length. unfold keys. rewrite map_length. destruct d; [congruence|cbn; lia]. Qed.

(** Annealing only compares values. *)
Lemma sa_loop_does rnd n_dim n_scan n_keep spread fuel : forall idle best f c,
  does (fun u => u) (sa_loop rnd obj n_dim n_scan n_keep spread fuel idle best f c)
    (sa_loop rnd obj' n_dim n_scan n_keep spread fuel idle (option_map g best) f (gd c)).
Proof.
  induction fuel as [|fuel IH]; intros idle best f c; cbn [sa_loop]; [apply does_raise|].
  destruct (idle <? 50)%nat; [|apply does_ret]. destruct c as [|e c]; cbn [gd map].
  - eapply does_bind; [apply (scan_does rnd n_dim n_scan [])|]. intros d. eapply does_bind; [apply keep_does|]. intros r. cbn [fst snd]. apply IH.
  - change ((g (fst e), snd e) :: map (fun e => (g (fst e), snd e)) c) with (gd (e :: c)).
    assert (Hne : e :: c <> []) by discriminate. rewrite gd_keys, best_does by auto.
    eapply does_bind; [apply evolve_does; auto|]. intros d. change (Some (g (nth 0 (sort_keys (keys (e :: c))) 0))) with (option_map g (Some (nth 0 (sort_keys (keys (e :: c))) 0))).
    eapply does_bind; [apply keep_does|]. intros r. cbn [fst snd]. apply IH.
Qed.
Lemma sa_solve_does rnd n_dim n_scan n_keep spread fuel :
  does (fun u => u) (sa_solve rnd obj n_dim n_scan n_keep spread fuel) (sa_solve rnd obj' n_dim n_scan n_keep spread fuel).
Proof. apply (sa_loop_does rnd n_dim n_scan n_keep spread fuel 0%nat None 1 []). Qed.

(** These do not look at the values at all. *)
Lemma quasi_does phi n_dim n : does (fun u => u) (quasi_solve obj phi n_dim n) (quasi_solve obj' phi n_dim n).
Proof.
  unfold quasi_solve. apply (does_for (fun u : unit => u)). intros i x _. destruct n_dim; [apply does_raise|].
  eapply does_bind; [apply evaluate_does|]. intros v. destruct x. apply does_ret.
Qed.
Lemma random_does nrm n_features n : does (fun u => u) (random_solve obj nrm n_features n) (random_solve obj' nrm n_features n).
Proof.
  unfold random_solve. apply (does_for (fun u : unit => u)). intros i x _.
  eapply does_bind; [apply evaluate_does|]. intros v. apply (does_ret (fun u : unit => u)).
Qed.
Lemma two_point_does rnd X ys n fuel : does (fun u => u) (two_point_solve rnd obj X ys n fuel) (two_point_solve rnd obj' X ys n fuel).
Proof.
  unfold two_point_solve. destruct (existsb _ _); [apply does_raise|]. destruct (_ <=? 1)%nat; [apply does_ret|].
  apply (does_for (fun u : unit => u)). intros i x _. unfold two_point_step.
  eapply does_bind; [apply does_id|]. intros ii. eapply does_bind; [apply does_id|]. intros k1. eapply does_bind; [apply does_id|]. intros k2. cbn beta.
  eapply does_bind; [apply evaluate_does|]. intros v. apply (does_ret (fun u : unit => u)).
Qed.

(** Gradient descent also subtracts them. *)
Hypothesis Hdiff : forall a b, g a - g b = a - b.
Lemma gradient_does value candidate dims : forall delta,
  does (fun r => r) (gradient obj value delta candidate dims) (gradient obj' (g value) delta candidate dims).
Proof.
  induction dims as [|i dims IH]; intros delta; cbn [gradient]; [apply does_id|].
  eapply does_bind; [apply evaluate_does|]. intros v. rewrite Hdiff. destruct (Reqb _ 0); [apply does_id|].
  eapply does_bind; [apply IH|]. intros r. apply does_id.
Qed.
Lemma find_gradient_does n_dim fuel : forall value delta candidate,
  does (fun r => r) (find_gradient obj n_dim fuel value delta candidate) (find_gradient obj' n_dim fuel (g value) delta candidate).
Proof.
  induction fuel as [|fuel IH]; intros value delta candidate; cbn [find_gradient]; [apply does_raise|].
  eapply does_bind; [apply gradient_does|]. intros [gr|]; [apply does_id|]. destruct (Rgeb _ _); [apply does_id|]. apply IH.
Qed.
Lemma line_search_does fuel : forall lambda candidate gr bp bv,
  does (fun r => (g (fst r), snd r)) (line_search obj fuel lambda candidate gr bp bv) (line_search obj' fuel lambda candidate gr bp (g bv)).
Proof.
  induction fuel as [|fuel IH]; intros lambda candidate gr bp bv; cbn [line_search]; [apply does_raise|].
  eapply does_bind; [apply evaluate_does|]. intros v. cbn beta. rewrite g_ltb. destruct (Rltb v bv); [apply IH|].
  apply (does_ret (fun r : R * list R => (g (fst r), snd r))).
Qed.
Lemma descend_does n_dim n_keep fuel start c : c <> [] ->
  does (fun s => (gd (fst s), snd s)) (descend obj n_dim n_keep fuel start c) (descend obj' n_dim n_keep fuel start (gd c)).
Proof.
  intros Hc. unfold descend. rewrite gd_keys, g_sort, map_length.
  apply (does_for (fun s : dict * R => (gd (fst s), snd s)) (seq 0 n_keep)). intros i x Hi. cbn [fst snd].
  rewrite g_nth by (apply picks; auto). rewrite gd_get.
  eapply does_bind; [apply find_gradient_does|]. intros [[gr dl]|]; [|apply (does_ret (fun s : dict * R => (gd (fst s), snd s)))].
  eapply does_bind; [apply line_search_does|]. intros b. cbn [fst snd]. rewrite gd_set.
  apply (does_ret (fun s : dict * R => (gd (fst s), snd s))).
Qed.
Lemma gd_loop_does rnd n_dim n_init n_keep inner fuel : forall idle best start c,
  does (fun u => u) (gd_loop rnd obj n_dim n_init n_keep fuel inner idle best start c)
    (gd_loop rnd obj' n_dim n_init n_keep fuel inner idle (option_map g best) start (gd c)).
Proof.
  induction fuel as [|fuel IH]; intros idle best start c; cbn [gd_loop]; [apply does_raise|].
  destruct (idle <? 3)%nat; [|apply does_ret]. destruct c as [|e c]; cbn [gd map].
  - eapply does_bind; [apply (scan_does rnd n_dim n_init [])|]. intros d. eapply does_bind; [apply keep_does|]. intros r. cbn [fst snd]. apply IH.
  - change ((g (fst e), snd e) :: map (fun e => (g (fst e), snd e)) c) with (gd (e :: c)).
    assert (Hne : e :: c <> []) by discriminate. rewrite gd_keys, best_does by auto.
    eapply does_bind; [apply descend_does; auto|]. intros d. change (Some (g (nth 0 (sort_keys (keys (e :: c))) 0))) with (option_map g (Some (nth 0 (sort_keys (keys (e :: c))) 0))).
    cbn [fst snd]. eapply does_bind; [apply keep_does|]. intros r. cbn [fst snd]. apply IH.
Qed.
Lemma gd_solve_does rnd n_dim n_init n_keep fuel :
  does (fun u => u) (gd_solve rnd obj n_dim n_init n_keep fuel) (gd_solve rnd obj' n_dim n_init n_keep fuel).
Proof. apply (gd_loop_does rnd n_dim n_init n_keep fuel fuel 0%nat None (/ 10 ^ 6) []). Qed.
End Order.

Lemma does_unit (m m' : M unit) : does (fun u => u) m m' -> forall s, m' s = m s.
Proof. intros H s. rewrite H. destruct (m s) as [[u|e] s1]; reflexivity. Qed.

Lemma run_order g cube vec o n_dim X ys fuel s : (forall a b, a < b -> g a < g b) ->
  match o with GradientDescent _ _ _ => False | _ => True end ->
  run_optimizer o (fun p => map_res g (cube p)) (fun p => map_res g (vec p)) n_dim X ys fuel s = run_optimizer o cube vec n_dim X ys fuel s.
Proof.
  intros Hg Ho. destruct o; try contradiction; cbn [run_optimizer]; apply does_unit.
  - eapply sa_solve_does; eauto.
  - eapply quasi_does; eauto.
  - eapply random_does; eauto.
  - eapply two_point_does; eauto.
Qed.
Lemma run_shift b cube vec o n_dim X ys fuel s :
  run_optimizer o (fun p => map_res (fun v => v + b) (cube p)) (fun p => map_res (fun v => v + b) (vec p)) n_dim X ys fuel s =
  run_optimizer o cube vec n_dim X ys fuel s.
Proof.
  assert (Hg : forall x y, x < y -> x + b < y + b) by (intros; lra).
  destruct o; try (apply (run_order (fun v => v + b)); cbn; auto; fail). cbn [run_optimizer]. apply does_unit.
  eapply gd_solve_does; [exact Hg|reflexivity|intros; lra].
Qed.
