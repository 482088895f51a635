(** * SimilarProofs: hyperplane trees commute with similarities (C78). *)
From Coq Require Import Reals Lra.
From Verif Require Import Prelude Lists Tree Perp RealOps Clf Reg Api Hyper HyperSpec Spec NonfiniteSpec PredictProofs ClfProofs PruneProofs HyperDist HyperProofs Sphere Optim OptimFit Coarse SimilarSpec.
Local Open Scope R_scope.

(** ** Vectors *)
Lemma combine_length a b x z n : length x = n -> length z = n -> length (combine_with a b x z) = n.
Proof. unfold combine_with. revert z n. induction x as [|p x IH]; intros [|q z] n Hx Hz; cbn in *; auto; try congruence. subst n. f_equal. apply IH; auto; congruence. Qed.
Lemma dot_combine a b x : forall z w, length x = length z -> dot (combine_with a b x z) w = a * dot x w + b * dot z w.
Proof.
  unfold dot, combine_with. induction x as [|p x IH]; intros [|q z] [|r w] H; simpl in *; try discriminate; try lra.
  injection H as H. rewrite (IH z w H). lra.
Qed.
Lemma mid_combine x z : map2 (fun a b => / 2 * (a + b)) x z = combine_with (/ 2) (/ 2) x z.
Proof. unfold combine_with. apply map2_ext. intros a b. ring. Qed.
Lemma combine_mid a b x x' v : length x = length v -> length x' = length v -> 
  combine_with (/ 2) (/ 2) (combine_with a b x v) (combine_with a b x' v) = combine_with a b (combine_with (/ 2) (/ 2) x x') v.
Proof.
  unfold combine_with. revert x x'. induction v as [|r v IH]; intros [|p x] [|q x'] H H'; cbn in *; try discriminate; auto.
  rewrite IH by congruence. f_equal. lra.
Qed.

Lemma Rleb_same a b a' b' : (a <= b <-> a' <= b') -> Rleb a b = Rleb a' b'.
Proof.
  intros H. destruct (Rleb a b) eqn:E, (Rleb a' b') eqn:E'; auto.
  - apply Rleb_true in E. apply Rleb_false in E'. apply H in E. lra.
  - apply Rleb_false in E. apply Rleb_true in E'. apply H in E'. lra.
Qed.
Lemma argsort_by_comparison : by_comparison (argsort_by Rleb).
Proof.
  intros key key' n H. unfold argsort_by.
  assert (Hi : forall i l, (i < n)%nat -> Forall (fun j => (j < n)%nat) l -> insert_by Rleb key i l = insert_by Rleb key' i l).
  { intros i l Hi. induction 1 as [|j l Hj Hl IH]; cbn; auto. rewrite IH, (Rleb_same _ _ _ _ (H j i Hj Hi)). reflexivity. }
  assert (Hb : forall i l, (i < n)%nat -> Forall (fun j => (j < n)%nat) l -> Forall (fun j => (j < n)%nat) (insert_by Rleb key i l)).
  { intros i l Hi'. induction 1 as [|j l Hj Hl IH]; cbn; auto. destruct (Rleb _ _); auto. }
  assert (G : forall is acc, Forall (fun j => (j < n)%nat) is -> Forall (fun j => (j < n)%nat) acc ->
    fold_left (fun acc i => insert_by Rleb key i acc) is acc = fold_left (fun acc i => insert_by Rleb key' i acc) is acc).
  { induction is as [|i is IH]; intros acc Hs Ha; cbn; auto. inversion Hs; subst. rewrite <- Hi by auto. apply IH; auto. }
  apply G; [|constructor]. apply Forall_forall. intros i Hin. apply in_seq in Hin. lia.
Qed.

(** ** One node *)
Section Move.
Variables (A : list R -> list R) (s : R) (v : list R) (dim : nat).
(** [okn]: the normals considered. *)
Variable okn : list R -> Prop.
Hypothesis HAl : forall x, length x = dim -> length (A x) = dim.
Hypothesis HAd : forall x n, length x = dim -> okn n -> dot (A x) (A n) = dot x n.
Hypothesis HAm : forall a b x z, length x = dim -> length z = dim -> A (combine_with a b x z) = combine_with a b (A x) (A z).
Hypothesis Hs : 0 < s.
Hypothesis Hv : length v = dim.
Notation phi := (moved A s v).

Lemma moved_length x : length x = dim -> length (phi x) = dim.
Proof. intros H. apply combine_length; auto. Qed.
Lemma moved_dot x n : length x = dim -> okn n -> dot (phi x) (A n) = s * dot x n + dot v (A n).
Proof.
  intros Hx Hn. unfold moved. rewrite dot_combine by (rewrite Hv; auto). rewrite HAd by auto. lra.
Qed.
Lemma moved_side x n o : length x = dim -> okn n -> length o = dim ->
  dot (phi x) (A n) - dot (A n) (phi o) = s * (dot x n - dot n o).
Proof. intros Hx Hn Ho. rewrite (dot_comm (A n)), !moved_dot by auto. rewrite (dot_comm n o). lra. Qed.
Lemma moved_mid a b : length a = dim -> length b = dim ->
  map2 (fun p q => / 2 * (p + q)) (phi a) (phi b) = phi (map2 (fun p q => / 2 * (p + q)) a b).
Proof.
  intros Ha Hb. rewrite !mid_combine. unfold moved. rewrite HAm by auto.
  apply combine_mid; rewrite Hv; auto.
Qed.
Lemma mid_length a b : length a = dim -> length b = dim -> length (map2 (fun p q => / 2 * (p + q)) a b) = dim.
Proof. rewrite mid_combine. apply combine_length. Qed.
Lemma Rltb_scale a : Rltb (s * a) 0 = Rltb a 0.
Proof.
  destruct (Rltb a 0) eqn:E, (Rltb (s * a) 0) eqn:E'; auto; (apply Rltb_true in E; apply Rltb_false in E'; nra) || (apply Rltb_false in E; apply Rltb_true in E'; nra).
Qed.
Lemma Rgeb_scale a : Rgeb (s * a) 0 = Rgeb a 0.
Proof.
  unfold Rgeb. apply Rleb_same. split; intros; nra.
Qed.
Lemma Rgtb_scale a b : Rgtb (s * a) (s * b) = Rgtb a b.
Proof.
  unfold Rgtb. destruct (Rltb b a) eqn:E, (Rltb (s * b) (s * a)) eqn:E'; auto; (apply Rltb_true in E; apply Rltb_false in E'; nra) || (apply Rltb_false in E; apply Rltb_true in E'; nra).
Qed.

Definition move_plane (pl : plane (list R) (list R)) : plane (list R) (list R) := mkPlane (A (p_normal pl)) (phi (p_origin pl)).
Definition move_state {S} (st : hopt (list R) (list R) S R) : hopt (list R) (list R) S R :=
  mkOpt (o_evals st) (o_best st) (s * o_dist st) (option_map move_plane (o_plane st)).
Definition plane_len (pl : plane (list R) (list R)) : Prop := okn (p_normal pl) /\ length (p_origin pl) = dim.
Definition state_len {S} (st : hopt (list R) (list R) S R) : Prop := forall pl, o_plane st = Some pl -> plane_len pl.

Section Node.
Context {C C' P : Type}.
Variables (pre : C -> list R) (pre' : C' -> list R) (prec : R) (srt : (nat -> R) -> nat -> list nat).
Hypothesis Hsrt : by_comparison srt.
Variables (L : lik R P R) (X : nat -> list R) (y : nat -> R) (n nd : nat).
Hypothesis Hn : (0 < n)%nat.
Hypothesis HX : forall i, (i < n)%nat -> length (X i) = dim.
Notation G := (geo_R pre prec srt).
Notation G' := (geo_R pre' (s * prec) srt).
Notation X' := (fun i => phi (X i)).

Definition match_cand (c : C) (c' : C') : Prop :=
  unit_vec (pre' c') = A (unit_vec (pre c)) /\ okn (unit_vec (pre c)).

Lemma split_positions_move rows nrm : Forall (fun i => (i < n)%nat) rows -> okn nrm ->
  split_positions (g_gap G') (map (fun i => dot (phi (X i)) (A nrm)) rows) = split_positions (g_gap G) (map (fun i => dot (X i) nrm) rows).
Proof.
  intros Hr Hl. unfold split_positions. do 2 f_equal. cbn [geo_R g_gap].
  induction Hr as [|i rows Hi Hr IH]; auto. destruct Hr as [|j rows Hj Hr]; [reflexivity|]. cbn [map adjacent] in *. f_equal; [|exact IH].
  rewrite !moved_dot by auto. replace (s * dot (X j) nrm + dot v (A nrm) - (s * dot (X i) nrm + dot v (A nrm))) with (s * (dot (X j) nrm - dot (X i) nrm)) by ring.
  rewrite Rabs_mult, (Rabs_right s) by lra. apply Rgtb_scale.
Qed.
Lemma row_lt rows k : Forall (fun i => (i < n)%nat) rows -> (nth k rows 0 < n)%nat.
Proof. intros H. destruct (nth_in_or_default k rows 0%nat) as [Hin| ->]; auto. rewrite Forall_forall in H. auto. Qed.
Lemma sort_move rows nrm m : Forall (fun i => (i < n)%nat) rows -> okn nrm ->
  srt (fun k => dot (phi (X (nth k rows 0%nat))) (A nrm)) m = srt (fun k => dot (X (nth k rows 0%nat)) nrm) m.
Proof.
  intros Hr Hl. apply Hsrt. intros i j _ _. rewrite !moved_dot by auto using row_lt. split; intros; nra.
Qed.
Lemma dist_move rows nrm o : Forall (fun i => (i < n)%nat) rows -> okn nrm -> length o = dim ->
  g_dist G' (A nrm) (phi o) (map (fun i => dot (phi (X i)) (A nrm)) rows) = s * g_dist G nrm o (map (fun i => dot (X i) nrm) rows).
Proof.
  intros Hr Hl Ho. cbn [geo_R g_dist]. unfold vsum. induction Hr as [|i rows Hi Hr IH]; cbn [map fold_right]; [lra|].
  rewrite IH, moved_side by auto. rewrite Rabs_mult, (Rabs_right s) by lra. lra.
Qed.
Lemma compute_move lvl prior rows ns st c c' : Forall (fun i => (i < n)%nat) rows -> match_cand c c' ->
  let r := opt_compute G L X y nd lvl prior rows ns st c in
  opt_compute G' L X' y nd lvl prior rows ns (move_state st) c' = (move_state (fst r), snd r) /\ (state_len st -> state_len (fst r)).
Proof.
  intros Hr [Hc Hl]. cbv zeta. unfold opt_compute.
  replace (g_unit G' c') with (A (g_unit G c)) by (symmetry; exact Hc).
  change (okn (g_unit G c)) in Hl. set (nrm := g_unit G c) in *. clearbody nrm.
  cbn [g_proj g_argsort geo_R].
  fold G. fold G'.
  rewrite (split_positions_move rows nrm Hr Hl), (sort_move rows nrm _ Hr Hl).
  set (ks := split_positions _ _). destruct ks as [|k0 ks]; [split; [reflexivity|auto]|].
  set (ord := srt _ _). set (lp := l_split _ _ _ _ _ _).
  destruct (nth_error lp _) as [a|]; [|split; [reflexivity|auto]].
  destruct (nth_error _ _) as [k|]; [|split; [reflexivity|auto]].
  cbn [o_best move_state]. destruct (l_ge L a (o_best st)); [|split; [reflexivity|auto]].
  set (p1 := X (nth (nth (k - 1) ord 0%nat) rows 0%nat)). set (p2 := X (nth (nth k ord 0%nat) rows 0%nat)).
  assert (H1 : length p1 = dim) by (apply HX, row_lt; auto). assert (H2 : length p2 = dim) by (apply HX, row_lt; auto).
  assert (Em : g_mid G' (phi p1) (phi p2) = phi (g_mid G p1 p2)) by (apply moved_mid; auto).
  assert (Hm : length (g_mid G p1 p2) = dim) by (apply mid_length; auto).
  rewrite Em. rewrite (dist_move rows nrm _ Hr Hl Hm). set (dst := g_dist _ _ _ _). cbn [o_dist].
  assert (Ef : g_far G' (s * dst) (s * o_dist st) = g_far G dst (o_dist st)) by apply Rgtb_scale.
  replace (g_far G' (s * dst) _) with (g_far G dst (o_dist st)) by (symmetry; exact Ef). destruct (if l_gt _ _ _ then _ else _); (split; [reflexivity|]); auto.
  intros _ pl. cbn [fst o_plane]. intros [= <-]. split; auto.
Qed.
Lemma run_move lvl prior rows ns cs cs' : Forall (fun i => (i < n)%nat) rows -> Forall2 match_cand cs cs' ->
  let st := opt_run G L X y nd lvl prior rows ns cs in
  opt_run G' L X' y nd lvl prior rows ns cs' = move_state st /\ state_len st.
Proof.
  intros Hr Hc. cbv zeta. unfold opt_run.
  assert (E : opt_init G' ns = move_state (opt_init G ns)).
  { unfold opt_init, move_state. cbn. rewrite Rmult_0_r. reflexivity. }
  rewrite E. assert (Hl : state_len (opt_init G ns)) by (intros pl; discriminate).
  revert Hl. generalize (opt_init G ns) as st. induction Hc as [|c c' cs cs' Hcc Hc IH]; intros st Hl; [split; auto|].
  cbn [fold_left]. destruct (compute_move lvl prior rows ns st c c' Hr Hcc) as [E1 H1]. cbv zeta in E1. rewrite E1. cbn [fst]. apply IH, H1, Hl.
Qed.

(** ** The tree *)
Variable post : R -> P -> list R -> P.
Lemma back_move pl i : plane_len pl -> (i < n)%nat -> g_back G' (p_normal (move_plane pl)) (p_origin (move_plane pl)) (phi (X i)) = g_back G (p_normal pl) (p_origin pl) (X i).
Proof. intros [H1 H2] Hi. cbn [geo_R g_back move_plane p_normal p_origin]. rewrite moved_side by auto. apply Rltb_scale. Qed.
Lemma front_move pl i : plane_len pl -> (i < n)%nat -> g_front G' (p_normal (move_plane pl)) (p_origin (move_plane pl)) (phi (X i)) = g_front G (p_normal pl) (p_origin pl) (X i).
Proof. intros [H1 H2] Hi. cbn [geo_R g_front move_plane p_normal p_origin]. rewrite moved_side by auto. apply Rgeb_scale. Qed.
Lemma filter_move (f g : nat -> bool) rows : Forall (fun i => (i < n)%nat) rows -> (forall i, (i < n)%nat -> f i = g i) -> filter f rows = filter g rows.
Proof. intros Hr H. apply filter_ext_in. intros i Hi. rewrite Forall_forall in Hr. auto. Qed.
Lemma filter_lt (f : nat -> bool) rows : Forall (fun i => (i < n)%nat) rows -> Forall (fun i => (i < n)%nat) (filter f rows).
Proof. rewrite !Forall_forall. intros H i Hi. apply filter_In in Hi. apply H, Hi. Qed.

Notation mt := (moved_tree A s v).
Definition planes_len {S} (t : tree (plane (list R) (list R)) S P) : Prop := Forall (fun x => plane_len (fst (fst x))) (splits t).

Lemma rbind_map {T U} (f : T -> T) (g : U -> U) (r : res T) (k k' : T -> res U) :
  (forall a, r = Ok a -> k' (f a) = map_res g (k a)) -> rbind (map_res f r) k' = map_res g (rbind r k).
Proof. destruct r as [a|e]; cbn; auto. Qed.

Lemma hfit_move cands cands' : (forall path, Forall2 match_cand (cands path) (cands' path)) ->
  forall fuel lvl path pa rows, Forall (fun i => (i < n)%nat) rows ->
  let r := hfit G L post X y nd cands fuel lvl path pa rows in
  hfit G' L post X' y nd cands' fuel lvl path pa rows = map_res mt r /\ (forall t, r = Ok t -> planes_len t).
Proof.
  intros Hc. induction fuel as [|fuel IH]; intros lvl path pa rows Hr; cbv zeta; [split; [reflexivity|discriminate]|].
  cbn [hfit]. set (prior := l_prior L pa (length rows) nd). set (ns := l_no_split L lvl prior (map y rows)).
  destruct (run_move lvl prior rows ns (cands path) (cands' path) Hr (Hc path)) as [E Hl]. cbv zeta in E. rewrite E.
  set (st := opt_run G L X y nd lvl prior rows ns (cands path)) in *. cbn [move_state o_plane o_best].
  destruct (o_plane st) as [pl|] eqn:Ep; cbn [option_map]; [|split; [reflexivity|]; intros t [= <-]; constructor].
  specialize (Hl pl Ep).
  rewrite (filter_move (fun i => g_back G' _ _ (phi (X i))) _ rows Hr (fun i => back_move pl i Hl)),
          (filter_move (fun i => g_front G' _ _ (phi (X i))) _ rows Hr (fun i => front_move pl i Hl)).
  set (rows1 := filter (fun i => g_back G _ _ (X i)) rows). set (rows2 := filter (fun i => g_front G _ _ (X i)) rows).
  assert (Hr1 : Forall (fun i => (i < n)%nat) rows1) by (apply filter_lt; auto).
  assert (Hr2 : Forall (fun i => (i < n)%nat) rows2) by (apply filter_lt; auto).
  destruct (_ && _); [|split; [reflexivity|]; intros t [= <-]; constructor].
  set (ch := fun (b : bool) (prior_c : P) (rows_c : list nat) => if (1 <? length rows_c)%nat && l_many L (map y rows_c)
              then hfit G L post X y nd cands fuel (lvl + 1) (path ++ [b]) (Some prior_c) rows_c
              else Ok (Leaf (mkInfo (Some prior_c) (lvl + 1) (length rows_c) None (l_post L prior (map y rows_c))))).
  set (ch' := fun (b : bool) (prior_c : P) (rows_c : list nat) => if (1 <? length rows_c)%nat && l_many L (map y rows_c)
              then hfit G' L post X' y nd cands' fuel (lvl + 1) (path ++ [b]) (Some prior_c) rows_c
              else Ok (Leaf (mkInfo (Some prior_c) (lvl + 1) (length rows_c) None (l_post L prior (map y rows_c))))).
  assert (Hch : forall b p rs, Forall (fun i => (i < n)%nat) rs -> ch' b p rs = map_res mt (ch b p rs) /\ forall t, ch b p rs = Ok t -> planes_len t).
  { intros b p rs Hrs. unfold ch, ch'. destruct (_ && _); [exact (IH (lvl + 1)%nat (path ++ [b]) (Some p) rs Hrs)|]. split; [reflexivity|]. intros t [= <-]. constructor. }
  destruct (Hch false (post 0 prior (map y rows1)) rows1 Hr1) as [E1 L1].
  destruct (Hch true (post 0 prior (map y rows2)) rows2 Hr2) as [E2 L2].
  change (rbind (ch' false (post 0 prior (map y rows1)) rows1) (fun c1 => rbind (ch' true (post 0 prior (map y rows2)) rows2)
     (fun c2 => Ok (Split (mkInfo pa lvl (length rows) (Some nd) (l_post L prior (map y rows))) (move_plane pl) ns (o_best st) c1 c2))) =
   map_res mt (rbind (ch false (post 0 prior (map y rows1)) rows1) (fun c1 => rbind (ch true (post 0 prior (map y rows2)) rows2)
     (fun c2 => Ok (Split (mkInfo pa lvl (length rows) (Some nd) (l_post L prior (map y rows))) pl ns (o_best st) c1 c2)))) /\
   forall t, rbind (ch false (post 0 prior (map y rows1)) rows1) (fun c1 => rbind (ch true (post 0 prior (map y rows2)) rows2)
     (fun c2 => Ok (Split (mkInfo pa lvl (length rows) (Some nd) (l_post L prior (map y rows))) pl ns (o_best st) c1 c2))) = Ok t -> planes_len t).
  rewrite E1, E2. destruct (ch false _ _) as [t1|e]; [|split; [reflexivity|discriminate]].
  destruct (ch true _ _) as [t2|e]; [|split; [reflexivity|discriminate]]. cbn [rbind map_res]. split; [reflexivity|].
  intros t [= <-]. unfold planes_len. cbn [splits]. constructor; [exact Hl|]. apply Forall_app. split; [apply L1|apply L2]; reflexivity.
Qed.

(** The same for optimizers that find the matching candidates. *)
Definition match_solve (r : res (list C)) (r' : res (list C')) : Prop :=
  match r, r' with Ok cs, Ok cs' => Forall2 match_cand cs cs' | Err e, Err e' => e = e' | _, _ => False end.
Lemma hfit_with_move solve solve' :
  (forall lvl prior rows ns, Forall (fun i => (i < n)%nat) rows -> match_solve (solve lvl prior rows ns) (solve' lvl prior rows ns)) ->
  forall fuel lvl pa rows, Forall (fun i => (i < n)%nat) rows ->
  let r := hfit_with G L post X y nd solve fuel lvl pa rows in
  hfit_with G' L post X' y nd solve' fuel lvl pa rows = map_res mt r /\ (forall t, r = Ok t -> planes_len t).
Proof.
  intros Hc. induction fuel as [|fuel IH]; intros lvl pa rows Hr; cbv zeta; [split; [reflexivity|discriminate]|].
  cbn [hfit_with]. set (prior := l_prior L pa (length rows) nd). set (ns := l_no_split L lvl prior (map y rows)).
  specialize (Hc lvl prior rows ns Hr). unfold match_solve in Hc.
  destruct (solve lvl prior rows ns) as [cs|e], (solve' lvl prior rows ns) as [cs'|e']; try contradiction;
    [|subst e'; split; [reflexivity|discriminate]]. cbn [rbind].
  destruct (run_move lvl prior rows ns cs cs' Hr Hc) as [E Hl]. cbv zeta in E. rewrite E.
  set (st := opt_run G L X y nd lvl prior rows ns cs) in *. cbn [move_state o_plane o_best].
  destruct (o_plane st) as [pl|] eqn:Ep; cbn [option_map]; [|split; [reflexivity|]; intros t [= <-]; constructor].
  specialize (Hl pl Ep).
  rewrite (filter_move (fun i => g_back G' _ _ (phi (X i))) _ rows Hr (fun i => back_move pl i Hl)),
          (filter_move (fun i => g_front G' _ _ (phi (X i))) _ rows Hr (fun i => front_move pl i Hl)).
  set (rows1 := filter (fun i => g_back G _ _ (X i)) rows). set (rows2 := filter (fun i => g_front G _ _ (X i)) rows).
  assert (Hr1 : Forall (fun i => (i < n)%nat) rows1) by (apply filter_lt; auto).
  assert (Hr2 : Forall (fun i => (i < n)%nat) rows2) by (apply filter_lt; auto).
  destruct (_ && _); [|split; [reflexivity|]; intros t [= <-]; constructor].
  set (ch := fun (prior_c : P) (rows_c : list nat) => if (1 <? length rows_c)%nat && l_many L (map y rows_c)
              then hfit_with G L post X y nd solve fuel (lvl + 1) (Some prior_c) rows_c
              else Ok (Leaf (mkInfo (Some prior_c) (lvl + 1) (length rows_c) None (l_post L prior (map y rows_c))))).
  set (ch' := fun (prior_c : P) (rows_c : list nat) => if (1 <? length rows_c)%nat && l_many L (map y rows_c)
              then hfit_with G' L post X' y nd solve' fuel (lvl + 1) (Some prior_c) rows_c
              else Ok (Leaf (mkInfo (Some prior_c) (lvl + 1) (length rows_c) None (l_post L prior (map y rows_c))))).
  assert (Hch : forall p rs, Forall (fun i => (i < n)%nat) rs -> ch' p rs = map_res mt (ch p rs) /\ forall t, ch p rs = Ok t -> planes_len t).
  { intros p rs Hrs. unfold ch, ch'. destruct (_ && _); [exact (IH (lvl + 1)%nat (Some p) rs Hrs)|]. split; [reflexivity|]. intros t [= <-]. constructor. }
  destruct (Hch (post 0 prior (map y rows1)) rows1 Hr1) as [E1 L1].
  destruct (Hch (post 0 prior (map y rows2)) rows2 Hr2) as [E2 L2].
  change (rbind (ch' (post 0 prior (map y rows1)) rows1) (fun c1 => rbind (ch' (post 0 prior (map y rows2)) rows2)
     (fun c2 => Ok (Split (mkInfo pa lvl (length rows) (Some nd) (l_post L prior (map y rows))) (move_plane pl) ns (o_best st) c1 c2))) =
   map_res mt (rbind (ch (post 0 prior (map y rows1)) rows1) (fun c1 => rbind (ch (post 0 prior (map y rows2)) rows2)
     (fun c2 => Ok (Split (mkInfo pa lvl (length rows) (Some nd) (l_post L prior (map y rows))) pl ns (o_best st) c1 c2)))) /\
   forall t, rbind (ch (post 0 prior (map y rows1)) rows1) (fun c1 => rbind (ch (post 0 prior (map y rows2)) rows2)
     (fun c2 => Ok (Split (mkInfo pa lvl (length rows) (Some nd) (l_post L prior (map y rows))) pl ns (o_best st) c1 c2))) = Ok t -> planes_len t).
  rewrite E1, E2. destruct (ch (post 0 prior (map y rows1)) rows1) as [t1|e]; [|split; [reflexivity|discriminate]].
  destruct (ch (post 0 prior (map y rows2)) rows2) as [t2|e]; [|split; [reflexivity|discriminate]]. cbn [rbind map_res]. split; [reflexivity|].
  intros t [= <-]. unfold planes_len. cbn [splits]. constructor; [exact Hl|]. apply Forall_app. split; [apply L1|apply L2]; reflexivity.
Qed.
End Node.

(** ** Pruning and predictions *)
Section After.
Context {S P : Type}.
Notation tree := (tree (plane (list R) (list R)) S P).
Notation mt := (moved_tree A s v).
Lemma prune_moved (same : ninfo P -> ninfo P -> bool) (t : tree) : prune_bu same (mt t) = mt (prune_bu same t).
Proof.
  induction t as [i|i pl a b c1 IH1 c2 IH2]; [reflexivity|]. cbn [moved_tree prune_bu]. rewrite IH1, IH2.
  destruct (prune_bu same c1) as [i1|], (prune_bu same c2) as [i2|]; try reflexivity.
  cbn [moved_tree]. destruct (same i1 i2); reflexivity.
Qed.
Lemma prune_planes (same : ninfo P -> ninfo P -> bool) (t : tree) : planes_len t -> planes_len (prune_bu same t).
Proof.
  unfold planes_len. induction t as [i|i pl a b c1 IH1 c2 IH2]; cbn [prune_bu splits]; auto. intros H.
  inversion H as [|x l Hp Hl E]; subst. apply Forall_app in Hl as [H1 H2]. specialize (IH1 H1). specialize (IH2 H2).
  destruct (prune_bu same c1) as [i1|i1 d1 a1 b1 l1 r1], (prune_bu same c2) as [i2|i2 d2 a2 b2 l2 r2];
    try (constructor; [exact Hp|]; apply Forall_app; split; assumption).
  destruct (same i1 i2); [constructor|]. constructor; [exact Hp|constructor].
Qed.
Lemma prune_flag_moved (same : ninfo P -> ninfo P -> bool) (b : bool) (r : res tree) :
  (let! t := map_res mt r in if b then prune same t else Ok t) = map_res mt (let! t := r in if b then prune same t else Ok t).
Proof.
  destruct r as [t|e]; [|reflexivity]. cbn [map_res rbind]. destruct b; [|reflexivity]. unfold prune.
  rewrite !prune_fuel_correct by auto. cbn [map_res]. rewrite prune_moved. reflexivity.
Qed.
Lemma prune_flag_planes (same : ninfo P -> ninfo P -> bool) (b : bool) (r : res tree) t' : (forall t, r = Ok t -> planes_len t) ->
  (let! t := r in if b then prune same t else Ok t) = Ok t' -> planes_len t'.
Proof.
  destruct r as [t|e]; [|discriminate]. intros H. specialize (H t eq_refl). cbn [rbind]. destruct b.
  - unfold prune. rewrite prune_fuel_correct by auto. intros [= <-]. apply prune_planes, H.
  - intros [= <-]. exact H.
Qed.
Lemma lookup_moved {O} (val : ninfo P -> O) Xq (t : tree) q : planes_len t -> length (Xq q) = dim ->
  lookup (behind (fun i => phi (Xq i))) (before (fun i => phi (Xq i))) val (mt t) q = lookup (behind Xq) (before Xq) val t q.
Proof.
  intros H Hq. unfold planes_len in H. induction t as [i|i pl a b c1 IH1 c2 IH2]; [reflexivity|].
  cbn [splits] in H. inversion H as [|x l [Hp Ho] Hl E]; subst. cbn [fst] in Hp, Ho. apply Forall_app in Hl as [H1 H2].
  cbn [moved_tree lookup]. rewrite IH1, IH2 by assumption.
  assert (E1 : behind (fun i => phi (Xq i)) (mkPlane (A (p_normal pl)) (phi (p_origin pl))) q = behind Xq pl q).
  { unfold behind. cbn [p_normal p_origin]. rewrite moved_side by auto. apply Rltb_scale. }
  assert (E2 : before (fun i => phi (Xq i)) (mkPlane (A (p_normal pl)) (phi (p_origin pl))) q = before Xq pl q).
  { unfold before. cbn [p_normal p_origin]. rewrite moved_side by auto. apply Rgeb_scale. }
  rewrite E1, E2. reflexivity.
Qed.
Lemma predict_moved {O} (val : ninfo P -> O) Xq (t : tree) m init : planes_len t -> (forall i, (i < m)%nat -> length (Xq i) = dim) ->
  predict_rows (behind (fun i => phi (Xq i))) (before (fun i => phi (Xq i))) val (mt t) m init = predict_rows (behind Xq) (before Xq) val t m init.
Proof.
  intros H Hq. rewrite !predict_rows_spec. apply map_ext_in. intros q Hin. apply in_seq in Hin. rewrite lookup_moved; auto. apply Hq. lia.
Qed.
End After.
End Move.

(** ** Given candidates *)
Section Given.
Variables (A : list R -> list R) (s : R) (v : list R).
Lemma unit_turn n c : isometry n A -> length c = n -> (exists j, nth j c 0 <> 0) -> unit_vec (A c) = A (unit_vec c).
Proof.
  intros (Hl & Hd & Hm) Hc [j Hj].
  assert (Hz : forall x, forallb (fun a => Reqb a 0) x = true -> dot x x = 0).
  { clear. unfold dot, vsum. induction x as [|a x IH]; cbn; auto. intros H. apply andb_true_iff in H as [H1 H2]. apply Reqb_true in H1. subst a. rewrite IH by auto. lra. }
  assert (Hnz : forallb (fun a => Reqb a 0) c = false).
  { destruct (forallb _ c) eqn:E; auto. exfalso. apply Hj. rewrite forallb_forall in E.
    destruct (nth_in_or_default j c 0) as [Hin| ->]; auto. apply Reqb_true, E, Hin. }
  pose proof (dot_pos c Hnz) as Hp.
  assert (Hnz' : forallb (fun a => Reqb a 0) (A c) = false).
  { destruct (forallb _ (A c)) eqn:E; auto. apply Hz in E. rewrite Hd in E by auto. lra. }
  unfold unit_vec. rewrite Hnz, Hnz'. unfold norm. rewrite Hd by auto. set (k := sqrt (dot c c)).
  assert (G : forall x, map (fun a => a / k) x = combine_with (/ k) 0 x x).
  { unfold combine_with. induction x as [|a x IH]; cbn; auto. rewrite IH. f_equal. unfold Rdiv. ring. }
  rewrite !G, Hm by auto. reflexivity.
Qed.
Lemma proper_match {C} (pre : C -> list R) n cands : isometry n A -> proper n pre cands -> (0 < n)%nat -> forall path,
  Forall2 (match_cand A (fun x => length x = n) pre (fun c => A (pre c))) (cands path) (cands path).
Proof.
  intros HA Hp Hn path. specialize (Hp path). induction (cands path) as [|c cs IH]; constructor.
  - destruct (Hp c (or_introl eq_refl)) as [Hc Hj]. split; [apply (unit_turn n); auto|].
    destruct (unit_vec_unit (pre c)) as [E _]; [destruct (pre c); cbn in *; [lia|discriminate]|]. congruence.
  - apply IH. intros x Hx. apply Hp. now right.
Qed.
Context {P : Type}.
Variables (L : lik R P R) (post : R -> P -> list R -> P) (same : ninfo P -> ninfo P -> bool) (b : bool).
Variables (srt : (nat -> R) -> nat -> list nat) (prec : R) (lvl : nat) (pa : option P).
Lemma hyper_fit_moved {C} (pre : C -> list R) cands (d : hset (list R) R) : by_comparison srt -> isometry (hs_dim d) A -> 0 < s -> length v = hs_dim d -> hset_ok d ->
  proper (hs_dim d) pre cands ->
  let r := hyper_fit (geo_R pre prec srt) L post same b lvl pa cands d in
  hyper_fit (geo_R (fun c => A (pre c)) (s * prec) srt) L post same b lvl pa cands (moved_set A s v d) = map_res (moved_tree A s v) r /\
  forall t, r = Ok t -> planes_len (hs_dim d) (fun x => length x = hs_dim d) t.
Proof.
  intros Hsrt HA Hs Hv (Hn & Hd & HX) Hc. cbv zeta. unfold hyper_fit. cbn [moved_set hs_X hs_y hs_dim hs_n].
  pose proof HA as (Hl & Hdot & Hm).
  destruct (hfit_move A s v (hs_dim d) (fun x => length x = hs_dim d) Hl Hdot Hm Hs Hv pre (fun c => A (pre c)) prec srt Hsrt L (hs_X d) (hs_y d) (hs_n d) (hs_dim d) Hn HX
    post cands cands (proper_match pre _ _ HA Hc Hd) (Datatypes.S (hs_n d)) lvl [] pa (seq 0 (hs_n d))) as [E H].
  { apply Forall_forall. intros i Hi. apply in_seq in Hi. lia. }
  cbv zeta in E. rewrite E. split; [apply prune_flag_moved|]. intros t Ht. eapply prune_flag_planes; eauto.
Qed.
End Given.

Lemma hclf_moved {C} (pre : C -> list R) srt A s v cands h d : by_comparison srt -> isometry (hs_dim d) A -> 0 < s -> length v = hs_dim d -> hset_ok d -> proper (hs_dim d) pre cands ->
  hclf_fit (fun c => A (pre c)) srt cands (with_prec (s * h_prec h) h) (moved_set A s v d) =
    map_res (moved_tree A s v) (hclf_fit pre srt cands h d).
Proof. intros. apply (hyper_fit_moved A s v (clf_lik (h_pp h) (h_delta h)) clf_posterior clf_same (h_prune h) srt (h_prec h) 0%nat (h_prior h) pre cands d); auto. Qed.
Lemma hreg_moved {C} (pre : C -> list R) srt A s v cands h d : by_comparison srt -> isometry (hs_dim d) A -> 0 < s -> length v = hs_dim d -> hset_ok d -> proper (hs_dim d) pre cands ->
  hreg_fit (fun c => A (pre c)) srt cands (with_prec (s * h_prec h) h) (moved_set A s v d) =
    map_res (moved_tree A s v) (hreg_fit pre srt cands h d).
Proof. intros. apply (hyper_fit_moved A s v (reg_lik (h_pp h) (h_delta h)) reg_posterior reg_same (h_prune h) srt (h_prec h) 0%nat (h_prior h) pre cands d); auto. Qed.
Lemma hclf_moved_predict {C} (pre : C -> list R) srt A s v cands h d t Xq m : by_comparison srt -> isometry (hs_dim d) A -> 0 < s -> length v = hs_dim d -> hset_ok d -> proper (hs_dim d) pre cands ->
  hclf_fit pre srt cands h d = Ok t -> (forall i, (i < m)%nat -> length (Xq i) = hs_dim d) ->
  hclf_predict (moved_tree A s v t) (fun i => moved A s v (Xq i)) m = hclf_predict t Xq m /\
  hclf_predict_proba (moved_tree A s v t) (fun i => moved A s v (Xq i)) m = hclf_predict_proba t Xq m.
Proof.
  intros Hsrt HA Hs Hv Hok Hc Ht Hq. pose proof HA as (Hl & Hdot & Hm).
  destruct (hyper_fit_moved A s v (clf_lik (h_pp h) (h_delta h)) clf_posterior clf_same (h_prune h) srt (h_prec h) 0%nat (h_prior h) pre cands d Hsrt HA Hs Hv Hok Hc) as [_ H].
  specialize (H t Ht). split; apply (predict_moved A s v (hs_dim d) (fun x => length x = hs_dim d) Hl Hdot); auto.
Qed.
Lemma hreg_moved_predict {C} (pre : C -> list R) srt A s v cands h d t Xq m : by_comparison srt -> isometry (hs_dim d) A -> 0 < s -> length v = hs_dim d -> hset_ok d -> proper (hs_dim d) pre cands ->
  hreg_fit pre srt cands h d = Ok t -> (forall i, (i < m)%nat -> length (Xq i) = hs_dim d) ->
  hreg_predict (moved_tree A s v t) (fun i => moved A s v (Xq i)) m = hreg_predict t Xq m.
Proof.
  intros Hsrt HA Hs Hv Hok Hc Ht Hq. pose proof HA as (Hl & Hdot & Hm).
  destruct (hyper_fit_moved A s v (reg_lik (h_pp h) (h_delta h)) reg_posterior reg_same (h_prune h) srt (h_prec h) 0%nat (h_prior h) pre cands d Hsrt HA Hs Hv Hok Hc) as [_ H].
  specialize (H t Ht). apply (predict_moved A s v (hs_dim d) (fun x => length x = hs_dim d) Hl Hdot); auto.
Qed.
