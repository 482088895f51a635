(** * OptimDescent: the gradient descent optimizer stays in the search space and stops. *)
From Coq Require Import Reals Lra Permutation Sorted.
From Verif Require Import Prelude Tree Perp RealOps Clf Reg Api Hyper Sphere SphereProofs Optim OptimProofs.
Local Open Scope R_scope.

(** Step sizes are powers of ten. *)
Definition tenth (k : nat) : R := / 10 ^ k.
Lemma tenth_S k : tenth (S k) = tenth k / 10.
Proof. unfold tenth. cbn [pow]. field. apply pow_nonzero. lra. Qed.
Lemma tenth_pos k : 0 < tenth k.
Proof. unfold tenth. apply Rinv_0_lt_compat, pow_lt. lra. Qed.
Lemma tenth_le k : tenth k <= 1.
Proof. induction k as [|k IH]; [unfold tenth; cbn; lra|]. rewrite tenth_S. pose proof (tenth_pos k). lra. Qed.
Lemma tenth_up k : tenth (S k) * 10 = tenth k.
Proof. rewrite tenth_S. field. Qed.

Section Descent.
Variables (obj : list R -> res R) (n : nat).
Variables (V : R -> Prop) (Ev : exn -> Prop).
Hypothesis Hobj : forall p, cube n p -> match obj p with Ok v => V v | Err e => Ev e end.
(** Errors of the objective, or exhausted fuel. *)
Variable Of : Prop.
Definition bad' (e : exn) (s : rstate) : Prop := (Ev e \/ (e = OutOfFuel /\ Of)) /\ inside n s.

Lemma gradient_triple value k candidate dims : cube n candidate -> (forall i, In i dims -> (i < n)%nat) ->
  triple (inside n) (gradient obj value (tenth (S k)) candidate dims)
    (fun r s => inside n s /\ forall g, r = Some g -> length g = length dims) bad'.
Proof.
  intros Hc. induction dims as [|i dims IH]; intros Hd; cbn [gradient].
  - apply triple_ret. intros s Hs. split; [auto|]. intros g E. inversion E. reflexivity.
  - set (step := if Rgtb (nth i candidate 0 + tenth (S k)) 1 then - tenth (S k) else tenth (S k)).
    pose proof (tenth_pos (S k)) as Hp. pose proof (tenth_S k) as HS. pose proof (tenth_le k) as Hl.
    assert (Rabs step = tenth (S k)) as Ha.
    { unfold step. destruct (Rgtb _ _); [rewrite Rabs_Ropp|]; apply Rabs_right; lra. }
    assert (cube n (set_nth i (nth i candidate 0 + step) candidate)) as Hcube.
    { destruct Hc as [Hc1 Hc2]. split; [now rewrite set_nth_length|]. rewrite Forall_forall in *. intros a Hin.
      apply set_nth_In in Hin as [Hin| ->]; [auto|]. assert (0 <= nth i candidate 0 <= 1) as Hb by (apply Hc2, nth_In; rewrite Hc1; apply Hd; now left).
      unfold step. destruct (Rgtb (nth i candidate 0 + tenth (S k)) 1) eqn:E; unfold Rgtb in E; [apply Rltb_true in E|apply Rltb_false in E]; lra. }
    rewrite Ha. intros s Hs. unfold bind at 1. cbn [evaluate]. specialize (Hobj _ Hcube).
    destruct (obj (set_nth i (nth i candidate 0 + step) candidate)) as [v|e].
    + set (s1 := mkR (r_draws s) (set_nth i (nth i candidate 0 + step) candidate :: r_evals s)).
      assert (inside n s1) as H1 by (now constructor). destruct (Reqb _ 0); [cbn; split; [auto|discriminate]|].
      unfold bind. specialize (IH (fun j Hj => Hd j (or_intror Hj)) s1 H1).
      destruct (gradient obj value (tenth (S k)) candidate dims s1) as [[[g|]|e] s2]; cbn [ret].
      * destruct IH as [I1 I2]. split; [auto|]. intros g' E. inversion E. cbn. now rewrite (I2 g eq_refl).
      * split; [apply IH|discriminate].
      * exact IH.
    + split; [now left|now constructor].
Qed.

Lemma find_gradient_triple fuel : forall value k candidate, cube n candidate -> ((fuel < S k)%nat -> Of) ->
  triple (inside n) (find_gradient obj n fuel value (tenth (S k)) candidate)
    (fun r s => inside n s /\ forall gd, r = Some gd -> length (fst gd) = n /\ exists j, (j <= k)%nat /\ snd gd = tenth (S j)) bad'.
Proof.
  induction fuel as [|fuel IH]; intros value k candidate Hc Hf; cbn [find_gradient].
  - apply triple_raise. intros s Hs. split; [|auto]. right. split; [auto|]. apply Hf. lia.
  - eapply triple_bind; [apply gradient_triple; [auto|intros i Hi; apply in_seq in Hi; lia]|].
    intros [g|]; cbv beta.
    + apply triple_ret. intros s [Hs Hg]. split; [auto|]. intros gd E. inversion E; subst. cbn. rewrite (Hg g eq_refl), seq_length. split; [auto|]. exists k. auto.
    + rewrite tenth_up. destruct (Rgeb (tenth k) 1) eqn:E.
      * apply triple_ret. intros s [Hs _]. split; [auto|discriminate].
      * destruct k as [|k]. { exfalso. unfold Rgeb in E. apply Rleb_false in E. unfold tenth in E. cbn in E. lra. }
        eapply triple_conseq; [apply (IH value k candidate Hc)| | |].
        -- intros H. apply Hf. lia.
        -- intros s [Hs _]. exact Hs.
        -- intros r s [Hs Hr]. split; [auto|]. intros gd Eg. destruct (Hr gd Eg) as (H1 & j & Hj & H2). split; [auto|]. exists j. split; [lia|auto].
        -- auto.
Qed.
End Descent.

Section Search.
Variables (obj : list R -> res R) (n : nat).
Variables (V : R -> Prop) (Ev : exn -> Prop).
Hypothesis Hobj : forall p, cube n p -> match obj p with Ok v => V v | Err e => Ev e end.
Variable Of : Prop.
(** [rank v] bounds the number of improvements still possible. *)
Variable rank : R -> nat.
Hypothesis Hrank : Of \/ (forall a b, V a -> a < b -> (rank a < rank b)%nat).
Notation bad' := (bad' n Ev Of).

Lemma line_search_triple fuel : forall lambda candidate grad best_p best_v, length candidate = n -> length grad = n -> cube n best_p -> V best_v ->
  (Of \/ (rank best_v < fuel)%nat) ->
  triple (inside n) (line_search obj fuel lambda candidate grad best_p best_v)
    (fun r s => inside n s /\ V (fst r) /\ cube n (snd r)) bad'.
Proof.
  induction fuel as [|fuel IH]; intros lambda candidate grad best_p best_v Hc Hg Hb Hv Hf; cbn [line_search].
  - apply triple_raise. intros s Hs. split; [|auto]. right. split; [auto|]. destruct Hf; [auto|lia].
  - set (p := clip (map2 (fun a g => a - lambda * g) candidate grad)).
    assert (cube n p) as Hp by (apply clip_cube, map2_length; auto).
    intros s Hs. unfold bind. cbn [evaluate]. specialize (Hobj p Hp). destruct (obj p) as [v|e]; [|split; [now left|now constructor]].
    assert (inside n (mkR (r_draws s) (p :: r_evals s))) as H1 by (now constructor).
    destruct (Rltb v best_v) eqn:E.
    + apply (IH (lambda * 2) candidate grad p v); auto. destruct Hf as [Hf|Hf]; [auto|]. destruct Hrank as [Hr|Hr]; [auto|]. right.
      apply Rltb_true in E. specialize (Hr v best_v Hobj E). lia.
    + cbn. auto.
Qed.

Lemma descend_triple n_keep fuel k d : dict_ok n V d -> d <> [] ->
  (Of \/ ((k + n_keep < fuel)%nat /\ forall v, V v -> (rank v < fuel)%nat)) ->
  triple (inside n) (descend obj n n_keep fuel (tenth (S k)) d)
    (fun r s => inside n s /\ dict_ok n V (fst r) /\ incl (keys d) (keys (fst r)) /\
       exists j, (j <= k + n_keep)%nat /\ snd r = tenth (S j)) bad'.
Proof.
  intros Hd Hne Hf. unfold descend. set (vs := sort_keys (keys d)).
  assert (0 < length vs)%nat as Hlen by (unfold vs, keys; rewrite sort_keys_length, map_length; destruct d; [congruence|cbn; lia]).
  eapply triple_conseq; [apply (triple_for (seq 0 n_keep) _ (fun l x s => (length l <= n_keep)%nat /\ inside n s /\ dict_ok n V (fst x) /\ incl (keys d) (keys (fst x)) /\
       exists j, (j + length l <= k + n_keep)%nat /\ snd x = tenth (S j)) bad')| | |].
  - intros i l' x Hi s (Hl & Hs & Hx & Hinc & j & Hj & Ej). cbn [length] in *.
    assert (i < n_keep)%nat as Hik by (specialize (Hi i (or_introl eq_refl)); apply in_seq in Hi; lia).
    set (value := nth (i * length vs / n_keep) vs 0).
    assert (In value (keys d)) as Hk0.
    { apply sort_keys_nth_In. rewrite <- (sort_keys_length (keys d)). fold vs. now apply scaled_index. }
    assert (In value (keys (fst x))) as Hk by auto.
    destruct (dict_ok_get _ _ _ _ Hx Hk) as (HV & Hc).
    unfold bind at 1. rewrite Ej.
    pose proof (find_gradient_triple obj n V Ev Hobj Of fuel value j (d_get (fst x) value) Hc) as F.
    assert ((fuel < S j)%nat -> Of) as HF. { intros H. destruct Hf as [Hf|[Hf _]]; [auto|lia]. }
    specialize (F HF s Hs). destruct (find_gradient obj n fuel value (tenth (S j)) (d_get (fst x) value) s) as [[[gd|]|e] s1].
    + destruct F as [F1 F2]. destruct (F2 gd eq_refl) as (F3 & j' & F4 & F5). unfold bind.
      pose proof (line_search_triple fuel (/ 10 ^ 6) (d_get (fst x) value) (fst gd) (d_get (fst x) value) value (proj1 Hc) F3 Hc HV) as Ls.
      assert (Of \/ (rank value < fuel)%nat) as HL by (destruct Hf as [Hf|[_ Hf]]; auto).
      specialize (Ls HL s1 F1).
      destruct (line_search obj fuel (/ 10 ^ 6) (d_get (fst x) value) (fst gd) (d_get (fst x) value) value s1) as [[b|e] s2]; cbn [ret fst snd].
      * destruct Ls as (L1 & L2 & L3). split; [lia|]. split; [auto|]. split; [now apply dict_ok_set|]. split.
        { intros w Hw. apply d_set_keys. left. auto. }
        exists (S j'). split; [lia|]. rewrite F5. symmetry. apply tenth_S.
      * exact Ls.
    + destruct F as [F1 _]. cbn [ret]. split; [lia|]. split; [auto|]. split; [auto|]. split; [auto|]. exists j. split; [lia|auto].
    + exact F.
  - intros s Hs. rewrite seq_length. cbn [fst snd]. split; [lia|]. split; [auto|]. split; [auto|]. split; [apply incl_refl|]. exists k. auto.
  - intros r s (_ & Hs & Hx & Hinc & j & Hj & Ej). cbn in Hj. split; [auto|]. split; [auto|]. split; [auto|]. exists j. split; [lia|auto].
  - auto.
Qed.
End Search.

(** ** Safety *)
Section Safety.
Variables (rnd : nat -> R) (obj : list R -> res R) (n n_init n_keep : nat).
Hypothesis Hrnd : forall k, 0 <= rnd k <= 1.
Notation T := (fun _ : R => True).

Lemma gd_loop_safe inner fuel : forall idle best k cands s, inside n s -> dict_ok n T cands ->
  inside n (snd (gd_loop rnd obj n n_init n_keep fuel inner idle best (tenth (S k)) cands s)).
Proof.
  induction fuel as [|fuel IH]; intros idle best k cands s Hs Hc; cbn [gd_loop]; [exact Hs|].
  destruct (idle <? 3)%nat; [|exact Hs]. destruct cands as [|e c].
  - unfold bind at 1. pose proof (scan_triple rnd obj n Hrnd T (fun _ => True) (any_obj obj n) n_init [] (length (r_evals s)) Hc s (conj Hs eq_refl)) as H.
    destruct (scan rnd obj n n_init [] s) as [[d|e] s1]; cbn [snd]; [|apply H]. destruct H as (H1 & _ & H2 & _).
    unfold bind. pose proof (keep_best_shape n_keep best idle d n H2 s1) as K. destruct (keep_best n_keep best idle d s1) as [[r|e] s2]; cbn [snd].
    + destruct K as [-> K]. now apply IH.
    + now rewrite K.
  - set (cs := e :: c) in *. unfold bind at 1.
    pose proof (descend_triple obj n T (fun _ => True) (any_obj obj n) True (fun _ => 0%nat) (or_introl I) n_keep inner k cs Hc ltac:(discriminate) (or_introl I) s Hs) as H.
    destruct (descend obj n n_keep inner (tenth (S k)) cs s) as [[d|e'] s1]; cbn [snd]; [|apply H]. destruct H as (H1 & H2 & _ & j & _ & Ej).
    unfold bind. pose proof (keep_best_shape n_keep (Some (nth 0 (sort_keys (keys cs)) 0)) idle (fst d) n H2 s1) as K.
    destruct (keep_best n_keep (Some (nth 0 (sort_keys (keys cs)) 0)) idle (fst d) s1) as [[r|e'] s2]; cbn [snd fst].
    + destruct K as [-> K]. rewrite Ej. now apply IH.
    + cbn in K. now rewrite K.
Qed.
End Safety.

(** ** Termination *)
Section Ends.
Variables (rnd : nat -> R) (obj : list R -> res R) (n n_init n_keep : nat).
Hypothesis Hrnd : forall k, 0 <= rnd k <= 1.
Variable vals : list R.
Hypothesis Hobj : forall p, cube n p -> exists v, obj p = Ok v /\ In v vals.
Hypothesis Hkeep : (0 < n_keep)%nat.
Notation V := (fun v : R => In v vals).

Lemma rank_vals a b : In a vals -> a < b -> (count_below vals a < count_below vals b)%nat.
Proof. apply count_below_lt. Qed.

Lemma gd_loop_ends inner fuel : forall idle best k cands s, inside n s -> dict_ok n V cands -> cands <> [] -> (idle <= 3)%nat ->
  (3 * count_below vals (dmin cands) + (3 - idle) < fuel)%nat ->
  (k + n_keep * fuel < inner)%nat -> (length vals < inner)%nat ->
  exists s', gd_loop rnd obj n n_init n_keep fuel inner idle best (tenth (S k)) cands s = (Ok tt, s').
Proof.
  induction fuel as [|fuel IH]; intros idle best k cands s Hs Hc Hne Hidle Hf Hk Hv; [lia|]. cbn [gd_loop].
  destruct (idle <? 3)%nat eqn:Ei; [|now exists s].
  apply Nat.ltb_lt in Ei. destruct cands as [|e c]; [congruence|]. set (cs := e :: c) in *. unfold bind at 1.
  pose proof (descend_triple obj n V (fun _ => False) (fin_obj obj n vals Hobj) False (count_below vals) (or_intror rank_vals) n_keep inner k cs Hc Hne) as H.
  assert (False \/ ((k + n_keep < inner)%nat /\ forall v, In v vals -> (count_below vals v < inner)%nat)) as Hin.
  { right. split; [nia|]. intros v _. pose proof (count_below_le vals v). lia. }
  specialize (H Hin s Hs).
  destruct (descend obj n n_keep inner (tenth (S k)) cs s) as [[d|e'] s1]; [|destruct H as [[[]|[_ []]] _]].
  destruct H as (H1 & H3 & H4 & j & Hj & Ej).
  assert (fst d <> []) as Hd. { intros E. rewrite E in H4. apply (H4 (dmin cs)), dmin_In. discriminate. }
  destruct (keep_best_ok n_keep (Some (dmin cs)) idle (fst d) n V Hkeep Hd H3) as (d' & K). destruct (K s1) as (K1 & K2 & K3 & K4). fold (dmin cs).
  unfold bind. rewrite K1. cbn [fst snd]. fold (dmin (fst d)) in *. fold (dmin d') in K4. rewrite Ej.
  pose proof (dmin_incl cs (fst d) Hne H4) as Hle. unfold improves.
  destruct (Rltb (dmin (fst d)) (dmin cs)) eqn:El.
  - apply Rltb_true in El. pose proof (count_below_lt vals (dmin (fst d)) (dmin cs) (dmin_val vals n (fst d) Hd H3) El) as Hlt.
    apply IH; auto; try lia; try nia; rewrite K4; lia.
  - apply Rltb_false in El. assert (dmin (fst d) = dmin cs) as Eq by lra.
    apply IH; auto; try lia; try nia; rewrite K4, Eq; lia.
Qed.

Lemma gd_loop_more inner fuel : forall idle best k cands s s', gd_loop rnd obj n n_init n_keep fuel inner idle best k cands s = (Ok tt, s') ->
  forall more, (fuel <= more)%nat -> gd_loop rnd obj n n_init n_keep more inner idle best k cands s = (Ok tt, s').
Proof.
  induction fuel as [|fuel IH]; intros idle best k cands s s' H more Hm; [discriminate|]. destruct more as [|more]; [lia|].
  cbn [gd_loop] in *. destruct (idle <? 3)%nat; [|exact H]. destruct cands as [|e c].
  - unfold bind at 1 in H. unfold bind at 1. destruct (scan _ _ _ _ _ _) as [[d|?] s1]; [|discriminate].
    unfold bind in *. destruct (keep_best _ _ _ _ _) as [[r|?] s2]; [|discriminate]. apply IH; [exact H|lia].
  - unfold bind at 1 in H. unfold bind at 1. destruct (descend _ _ _ _ _ _ _) as [[d|?] s1]; [|discriminate].
    unfold bind in *. destruct (keep_best _ _ _ _ _) as [[r|?] s2]; [|discriminate]. apply IH; [exact H|lia].
Qed.

Lemma gd_solve_ends s : (0 < n_init)%nat -> inside n s ->
  exists bound, forall fuel, (bound <= fuel)%nat -> exists s', gd_solve rnd obj n n_init n_keep fuel s = (Ok tt, s').
Proof.
  intros Hinit Hs. set (F := (3 * length vals + 5)%nat). exists (S F + 6 + n_keep * F + length vals)%nat. intros fuel Hfuel. unfold gd_solve.
  assert (exists s', gd_loop rnd obj n n_init n_keep (S F) fuel 0 None (/ 10 ^ 6) [] s = (Ok tt, s')) as (s' & E).
  { cbn [gd_loop]. replace (0 <? 3)%nat with true by reflexivity.
    unfold bind at 1. assert (dict_ok n V []) as H0 by (intros v p []).
    pose proof (scan_triple rnd obj n Hrnd V (fun _ => False) (fin_obj obj n vals Hobj) n_init [] (length (r_evals s)) H0 s (conj Hs eq_refl)) as H.
    destruct (scan rnd obj n n_init [] s) as [[d|e] s1]; [|destruct H as [[] _]]. destruct H as (H1 & H2 & H3 & H4). specialize (H4 Hinit).
    destruct (keep_best_ok n_keep None 0 d n V Hkeep H4 H3) as (d' & K). destruct (K s1) as (K1 & K2 & K3 & K4).
    unfold bind. rewrite K1. cbn [fst snd improves]. pose proof (count_below_le vals (dmin d')) as Hcb.
    change (/ 10 ^ 6) with (tenth (S 5)). apply gd_loop_ends; auto; try lia; unfold F in *; try nia. }
  exists s'. apply (gd_loop_more _ _ _ _ _ _ _ _ E). lia.
Qed.
End Ends.
