(** * SimilarOptim: the optimizers of the package on translated and uniformly scaled data (C78). *)
From Coq Require Import Reals Lra FunctionalExtensionality.
From Verif Require Import Prelude Lists Tree Perp RealOps Clf Reg Api Hyper HyperSpec Spec NonfiniteSpec ClfProofs HyperDist HyperProofs Sphere Optim OptimFit Coarse SimilarSpec SimilarProofs.
Local Open Scope R_scope.

Definition same_row (x : list R) : list R := x.
Definition scaled (s : R) (x : list R) : list R := map (fun a => s * a) x.

Lemma combine_id a b x z : same_row (combine_with a b x z) = combine_with a b (same_row x) (same_row z).
Proof. reflexivity. Qed.
Lemma unit_scaled s c : 0 < s -> unit_vec (scaled s c) = unit_vec c.
Proof.
  intros Hs. unfold unit_vec, scaled.
  assert (E : forallb (fun x => Reqb x 0) (map (fun a => s * a) c) = forallb (fun x => Reqb x 0) c).
  { induction c as [|a c IH]; cbn; auto. rewrite IH. f_equal. destruct (Reqb a 0) eqn:Ea.
    - apply Reqb_true in Ea. subst a. apply Reqb_true. lra.
    - apply Reqb_false in Ea. apply Reqb_false. nra. }
  rewrite E. destruct (forallb _ c) eqn:Ec.
  - assert (F : map (fun a => s * a) c = c).
    { clear E. induction c as [|a c IH]; cbn; auto. cbn in Ec. apply andb_true_iff in Ec as [Ea Ec]. apply Reqb_true in Ea. subst a. rewrite IH by auto. f_equal. lra. }
    rewrite F. reflexivity.
  - pose proof (dot_pos c Ec) as Hp.
    assert (N : norm (map (fun a => s * a) c) = s * norm c).
    { unfold norm. replace (dot (map (fun a => s * a) c) (map (fun a => s * a) c)) with (s * s * dot c c).
      - rewrite sqrt_mult by nra. rewrite sqrt_square by lra. reflexivity.
      - clear. unfold dot, vsum. induction c as [|a c IH]; cbn [map map2 fold_right]; [lra|]. rewrite <- IH. lra. }
    rewrite N, map_map. apply map_ext. intros a. unfold norm. pose proof (sqrt_lt_R0 _ Hp). field. split; lra.
Qed.

(** ** Two runs whose points are related *)
Section Sim.
Variable f : list R -> list R.
Definition st_rel (a b : rstate) : Prop := r_draws b = r_draws a /\ r_evals b = map f (r_evals a).
Definition sim {T} (m m' : M T) : Prop := forall a b, st_rel a b -> fst (m' b) = fst (m a) /\ st_rel (snd (m a)) (snd (m' b)).
Lemma sim_ret {T} (x : T) : sim (ret x) (ret x).
Proof. intros a b H. split; auto. Qed.
Lemma sim_raise {T} e : sim (@raise T e) (raise e).
Proof. intros a b H. split; auto. Qed.
Lemma sim_bind {T U} (m m' : M T) (k k' : T -> M U) : sim m m' -> (forall x, sim (k x) (k' x)) -> sim (bind m k) (bind m' k').
Proof.
  intros Hm Hk a b H. unfold bind. destruct (Hm a b H) as [E R]. destruct (m a) as [[x|e] a'], (m' b) as [[x'|e'] b']; cbn in E; try discriminate.
  - injection E as ->. apply Hk, R.
  - injection E as ->. split; auto.
Qed.
Lemma sim_for {T U} (l : list T) (body body' : T -> U -> M U) : (forall x u, sim (body x u) (body' x u)) -> forall u, sim (for_each l body u) (for_each l body' u).
Proof. intros H. induction l as [|x l IH]; intros u; cbn [for_each]; [apply sim_ret|]. apply sim_bind; auto. Qed.
Lemma sim_evaluate obj obj' p : obj' (f p) = obj p -> sim (evaluate obj p) (evaluate obj' (f p)).
Proof. intros E a b [H1 H2]. cbn. split; auto. split; cbn; auto. now rewrite H2. Qed.
Lemma sim_randint rnd n : sim (randint rnd n) (randint rnd n).
Proof. intros a b [H1 H2]. unfold randint. destruct (n <=? 0)%Z; cbn; [split; auto; split; auto|]. rewrite H1. split; auto. split; auto. Qed.
Lemma sim_draw_other rnd ys fuel c : sim (draw_other rnd ys fuel c) (draw_other rnd ys fuel c).
Proof.
  induction fuel as [|fuel IH]; cbn [draw_other]; [apply sim_raise|]. apply sim_bind; [apply sim_randint|]. intros z.
  destruct (_ =? _)%Z; [exact IH|apply sim_ret].
Qed.
Lemma sim_draw_classes rnd ys fuel inner : sim (draw_classes rnd ys fuel inner) (draw_classes rnd ys fuel inner).
Proof.
  induction fuel as [|fuel IH]; cbn [draw_classes]; [apply sim_raise|]. apply sim_bind; [apply sim_randint|]. intros z.
  apply sim_bind; [apply sim_draw_other|]. intros w. destruct (_ || _); [exact IH|apply sim_ret].
Qed.
End Sim.

Lemma difference_moved s v p q : 0 < s -> (length p <= length v)%nat -> (length q <= length v)%nat ->
  map2 Rminus (moved same_row s v q) (moved same_row s v p) = scaled s (map2 Rminus q p).
Proof.
  intros Hs. unfold moved, same_row, combine_with, scaled. revert p q. induction v as [|c v IH]; intros [|a p] [|b q] Hp Hq; cbn in *; auto; try lia.
  rewrite IH by lia. f_equal. lra.
Qed.
Lemma two_point_sim s v rnd obj obj' Xs ys n_mc fuel : 0 < s -> Forall (fun x => length x = length v) Xs -> (forall p, obj' (scaled s p) = obj p) ->
  sim (scaled s) (two_point_solve rnd obj Xs ys n_mc fuel) (two_point_solve rnd obj' (map (moved same_row s v) Xs) ys n_mc fuel).
Proof.
  intros Hs HX Ho. unfold two_point_solve. destruct (existsb _ _); [apply sim_raise|]. destruct (_ <=? 1)%nat; [apply sim_ret|].
  apply sim_for. intros _ _. unfold two_point_step. apply sim_bind; [apply sim_draw_classes|]. intros ii.
  apply sim_bind; [apply sim_randint|]. intros k1. apply sim_bind; [apply sim_randint|]. intros k2.
  assert (N : forall i, nth i (map (moved same_row s v) Xs) [] = moved same_row s v (nth i Xs [])).
  { intros i. change [] with (moved same_row s v []) at 1. apply map_nth. }
  assert (Ln : forall i, (length (nth i Xs []) <= length v)%nat).
  { intros i. destruct (nth_in_or_default i Xs []) as [Hin| ->]; [|cbn; lia]. rewrite Forall_forall in HX. rewrite (HX _ Hin). lia. }
  rewrite !N, difference_moved by auto. set (nrm := map2 Rminus _ _).
  assert (E : Rltb (nth 0 (scaled s nrm) 0) 0 = Rltb (nth 0 nrm 0) 0).
  { unfold scaled. destruct nrm as [|a l]; cbn; auto. now apply Rltb_scale. }
  rewrite E.
  replace (if Rltb (nth 0 nrm 0) 0 then map (fun a => a * -1) (scaled s nrm) else scaled s nrm)
    with (scaled s (if Rltb (nth 0 nrm 0) 0 then map (fun a => a * -1) nrm else nrm)).
  2:{ clear E. destruct (Rltb (nth 0 nrm 0) 0); auto. unfold scaled. rewrite !map_map. apply map_ext. intros a. ring. }
  apply sim_bind; [|intros; apply sim_ret]. apply sim_evaluate, Ho.
Qed.

Section Fit.
Context {P : Type}.
Variables (L : lik R P R) (post : R -> P -> list R -> P) (same : ninfo P -> ninfo P -> bool).
Variables (s : R) (v : list R) (srt : (nat -> R) -> nat -> list nat) (o : optimizer) (fuel : nat).
Hypothesis Hs : 0 < s.
Hypothesis Hsrt : by_comparison srt.
Variable h : hyper P.
Variable d : hset (list R) R.
Hypothesis Hok : hset_ok d.
Hypothesis Hv : length v = hs_dim d.
Notation A := same_row.
Notation any := (fun _ : list R => True).
Notation X' := (fun i => moved same_row s v (hs_X d i)).

Lemma value_moved lvl prior rows ns c c' : Forall (fun i => (i < hs_n d)%nat) rows -> unit_vec c' = unit_vec c ->
  vector_value L (s * h_prec h) srt X' (hs_y d) (hs_dim d) lvl prior rows ns c' = vector_value L (h_prec h) srt (hs_X d) (hs_y d) (hs_dim d) lvl prior rows ns c.
Proof.
  intros Hr Hc. unfold vector_value. destruct Hok as (Hn & Hd & HX).
  destruct (compute_move same_row s v (hs_dim d) any (fun x H => H) (fun x n _ _ => eq_refl) (fun a b x z _ _ => eq_refl) Hs Hv
    (fun c => c) (fun c => c) (h_prec h) srt Hsrt L (hs_X d) (hs_y d) (hs_n d) (hs_dim d) Hn HX lvl prior rows ns
    (opt_init (geo_R (fun c => c) (h_prec h) srt) ns) c c' Hr) as [E _]; [split; [exact Hc|exact I]|]. cbv zeta in E.
  f_equal. replace (opt_init (geo_R (fun c => c) (s * h_prec h) srt) ns) with (move_state same_row s v (opt_init (geo_R (fun c : list R => c) (h_prec h) srt) ns)).
  - rewrite E. reflexivity.
  - unfold opt_init, move_state. cbn. rewrite Rmult_0_r. reflexivity.
Qed.
Lemma matched_refl (pre : list R -> list R) cs : Forall2 (match_cand same_row any pre pre) cs cs.
Proof. induction cs; constructor; auto. split; auto. Qed.
Lemma matched_scaled (pre : list R -> list R) cs : (forall c, pre c = c) -> Forall2 (match_cand same_row any pre pre) cs (map (scaled s) cs).
Proof. intros H. induction cs; cbn [map]; constructor; auto. split; [|exact I]. rewrite !H. now apply unit_scaled. Qed.
Lemma solve_moved lvl prior rows ns : Forall (fun i => (i < hs_n d)%nat) rows ->
  match_solve same_row any (normal_of o) (normal_of o)
    (solve_node L (h_prec h) srt (hs_X d) (hs_y d) (hs_dim d) o fuel lvl prior rows ns)
    (solve_node L (s * h_prec h) srt X' (hs_y d) (hs_dim d) o fuel lvl prior rows ns).
Proof.
  intros Hr. unfold solve_node.
  assert (Ev : vector_obj L (s * h_prec h) srt X' (hs_y d) (hs_dim d) lvl prior rows ns = vector_obj L (h_prec h) srt (hs_X d) (hs_y d) (hs_dim d) lvl prior rows ns).
  { apply functional_extensionality. intros c. unfold vector_obj. rewrite (value_moved lvl prior rows ns c c Hr); auto. }
  assert (Ec : cube_obj L (s * h_prec h) srt X' (hs_y d) (hs_dim d) lvl prior rows ns = cube_obj L (h_prec h) srt (hs_X d) (hs_y d) (hs_dim d) lvl prior rows ns).
  { apply functional_extensionality. intros c. unfold cube_obj. destruct (sphere true c) as [p|e]; cbn [rbind]; auto.
    rewrite (value_moved lvl prior rows ns p p Hr); auto. }
  assert (Hsame : forall r : res unit * rstate, match_solve same_row any (normal_of o) (normal_of o) (let! _ := fst r in Ok (rev (r_evals (snd r)))) (let! _ := fst r in Ok (rev (r_evals (snd r))))).
  { intros [[u|e] st]; cbn; auto using matched_refl. }
  destruct o as [rnd n_scan n_keep spread|rnd n_init n_keep|phi n|nrm n_mc|rnd n_mc] eqn:Eo; cbn [run_optimizer]; rewrite ?Ev, ?Ec; try apply Hsame.
  match goal with |- match_solve _ _ _ _ (let! _ := fst (?m _) in _) (let! _ := fst (?m' _) in _) => assert (S : sim (scaled s) m m') end.
  { replace (map X' rows) with (map (moved same_row s v) (map (hs_X d) rows)) by (rewrite map_map; reflexivity).
    apply two_point_sim; auto.
    - apply Forall_forall. intros x Hx. apply in_map_iff in Hx as (i & <- & Hi). rewrite Hv. apply Hok. rewrite Forall_forall in Hr. auto.
    - intros p. unfold vector_obj. f_equal.
      rewrite <- (value_moved lvl prior rows ns (scaled s p) (scaled s p) Hr eq_refl). apply (value_moved lvl prior rows ns p (scaled s p) Hr), unit_scaled, Hs. }
  destruct (S (mkR 0 []) (mkR 0 []) (conj eq_refl eq_refl)) as [E [_ R]]. rewrite E. match type of E with _ = ?x => destruct x as [u|e] end; cbn [rbind match_solve]; [|reflexivity].
  rewrite R, <- map_rev. apply matched_scaled. intros c. reflexivity.
Qed.
Lemma hyper_fit_opt_moved :
  let r := hyper_fit_opt L post same srt o fuel h d in
  hyper_fit_opt L post same srt o fuel (with_prec (s * h_prec h) h) (moved_set same_row s v d) = map_res (moved_tree same_row s v) r /\
  forall t, r = Ok t -> planes_len (hs_dim d) any t.
Proof.
  cbv zeta. unfold hyper_fit_opt. cbn [moved_set hs_X hs_y hs_dim hs_n with_prec h_prec h_prior h_prune]. destruct Hok as (Hn & Hd & HX).
  destruct (hfit_with_move same_row s v (hs_dim d) any (fun x H => H) (fun x n _ _ => eq_refl) (fun a b x z _ _ => eq_refl) Hs Hv
    (normal_of o) (normal_of o) (h_prec h) srt Hsrt L (hs_X d) (hs_y d) (hs_n d) (hs_dim d) Hn HX post _ _ solve_moved
    (Datatypes.S (hs_n d)) 0%nat (h_prior h) (seq 0 (hs_n d))) as [E H].
  { apply Forall_forall. intros i Hi. apply in_seq in Hi. lia. }
  cbv zeta in E. rewrite E. split; [apply prune_flag_moved|]. intros t Ht. eapply prune_flag_planes; eauto.
Qed.
End Fit.

Lemma hclf_opt_moved srt o fuel s v h d : by_comparison srt -> 0 < s -> length v = hs_dim d -> hset_ok d ->
  hclf_fit_opt srt o fuel (with_prec (s * h_prec h) h) (moved_set (fun x => x) s v d) = map_res (moved_tree (fun x => x) s v) (hclf_fit_opt srt o fuel h d).
Proof. intros Hsrt Hs Hv Hok. exact (proj1 (hyper_fit_opt_moved (clf_lik (h_pp h) (h_delta h)) clf_posterior clf_same s v srt o fuel Hs Hsrt h d Hok Hv)). Qed.
Lemma hreg_opt_moved srt o fuel s v h d : by_comparison srt -> 0 < s -> length v = hs_dim d -> hset_ok d ->
  hreg_fit_opt srt o fuel (with_prec (s * h_prec h) h) (moved_set (fun x => x) s v d) = map_res (moved_tree (fun x => x) s v) (hreg_fit_opt srt o fuel h d).
Proof. intros Hsrt Hs Hv Hok. exact (proj1 (hyper_fit_opt_moved (reg_lik (h_pp h) (h_delta h)) reg_posterior reg_same s v srt o fuel Hs Hsrt h d Hok Hv)). Qed.
Lemma hclf_opt_moved_predict srt o fuel s v h d t Xq m : by_comparison srt -> 0 < s -> length v = hs_dim d -> hset_ok d ->
  hclf_fit_opt srt o fuel h d = Ok t -> (forall i, (i < m)%nat -> length (Xq i) = hs_dim d) ->
  let move := moved (fun x => x) s v in let t' := moved_tree (fun x => x) s v t in
  hclf_predict t' (fun i => move (Xq i)) m = hclf_predict t Xq m /\ hclf_predict_proba t' (fun i => move (Xq i)) m = hclf_predict_proba t Xq m.
Proof.
  intros Hsrt Hs Hv Hok Ht Hq. cbv zeta.
  pose proof (proj2 (hyper_fit_opt_moved (clf_lik (h_pp h) (h_delta h)) clf_posterior clf_same s v srt o fuel Hs Hsrt h d Hok Hv) t Ht) as H.
  split; apply (predict_moved (fun x => x) s v (hs_dim d) (fun _ => True) (fun x H => H) (fun x n _ _ => eq_refl)); auto.
Qed.
Lemma hreg_opt_moved_predict srt o fuel s v h d t Xq m : by_comparison srt -> 0 < s -> length v = hs_dim d -> hset_ok d ->
  hreg_fit_opt srt o fuel h d = Ok t -> (forall i, (i < m)%nat -> length (Xq i) = hs_dim d) ->
  hreg_predict (moved_tree (fun x => x) s v t) (fun i => moved (fun x => x) s v (Xq i)) m = hreg_predict t Xq m.
Proof.
  intros Hsrt Hs Hv Hok Ht Hq.
  pose proof (proj2 (hyper_fit_opt_moved (reg_lik (h_pp h) (h_delta h)) reg_posterior reg_same s v srt o fuel Hs Hsrt h d Hok Hv) t Ht) as H.
  apply (predict_moved (fun x => x) s v (hs_dim d) (fun _ => True) (fun x H => H) (fun x n _ _ => eq_refl)); auto.
Qed.
