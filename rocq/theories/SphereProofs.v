(** * SphereProofs: the search space mapping covers exactly the (half) sphere. *)
From Coq Require Import Reals Lra.
From Verif Require Import Prelude RealOps Hyper Sphere.
Local Open Scope R_scope.

Definition sumsq (x : list R) : R := vsum (map (fun a => a ^ 2) x).

Lemma sumsq_app x z : sumsq (x ++ z) = sumsq x + sumsq z.
Proof. induction x as [|a x IH]; unfold sumsq, vsum in *; cbn [app map fold_right] in *; [lra|]. rewrite IH. lra. Qed.
Lemma sumsq_scale h x : sumsq (map (fun a => a * h) x) = h ^ 2 * sumsq x.
Proof. induction x as [|a x IH]; unfold sumsq, vsum in *; cbn [map fold_right] in *; [ring|]. rewrite IH. ring. Qed.
Lemma sumsq_nonneg x : 0 <= sumsq x.
Proof. induction x as [|a x IH]; unfold sumsq, vsum in *; cbn [map fold_right] in *; [lra|]. pose proof (pow2_ge_0 a). lra. Qed.
Lemma sumsq_dot x : dot x x = sumsq x.
Proof. induction x as [|a x IH]; unfold dot, sumsq, vsum in *; cbn [map map2 fold_right] in *; [reflexivity|]. rewrite IH. ring. Qed.
Lemma norm_one x : sumsq x = 1 -> norm x = 1.
Proof. intros H. unfold norm. rewrite sumsq_dot, H. apply sqrt_1. Qed.
Lemma sumsq_zero x : sumsq x = 0 -> forall a, In a x -> a = 0.
Proof.
  induction x as [|b x IH]; intros H a Ha; [destruct Ha|]. unfold sumsq, vsum in H. cbn [map fold_right] in H. fold (vsum (map (fun a => a ^ 2) x)) in H. fold (sumsq x) in H.
  pose proof (sumsq_nonneg x). pose proof (pow2_ge_0 b). destruct Ha as [<-|Ha]; [|apply IH; auto; lra].
  assert (b * b = 0) by (cbn in *; lra). destruct (Rmult_integral b b); auto.
Qed.

(** ** Roots *)

Lemma Reqb_true a b : Reqb a b = true <-> a = b.
Proof. unfold Reqb. destruct (Req_EM_T a b); split; congruence. Qed.

Lemma root_pow_range u k : 0 <= u <= 1 -> 0 <= root_pow u k <= 1.
Proof.
  intros Hu. unfold root_pow. destruct (Reqb u 0) eqn:E; [lra|].
  assert (u <> 0) by (intros ->; rewrite (proj2 (Reqb_true 0 0) eq_refl) in E; discriminate).
  unfold Rpower. split; [left; apply exp_pos|]. apply Rle_trans with (exp 0); [|rewrite exp_0; lra].
  destruct (Nat.eq_dec k 0) as [->|Hk].
  { cbn [INR]. unfold Rdiv. rewrite Rinv_0, Rmult_0_r, Rmult_0_l. lra. }
  assert (0 < INR k) by (apply lt_0_INR; lia).
  assert (ln u <= 0). { destruct (Req_dec u 1) as [->|Hn]; [rewrite ln_1; lra|]. rewrite <- ln_1. left. apply ln_increasing; lra. }
  assert (1 / INR k * ln u <= 0).
  { unfold Rdiv. rewrite Rmult_1_l. assert (0 < / INR k) by (now apply Rinv_0_lt_compat). nra. }
  destruct (Req_dec (1 / INR k * ln u) 0) as [->|Hn]; [lra|]. left. apply exp_increasing. lra.
Qed.

Lemma root_pow_onto h k : (0 < k)%nat -> 0 <= h <= 1 -> exists u, 0 <= u <= 1 /\ root_pow u k = h.
Proof.
  intros Hk Hh. destruct (Req_dec h 0) as [->|Hn].
  - exists 0. split; [lra|]. unfold root_pow. now rewrite (proj2 (Reqb_true 0 0) eq_refl).
  - assert (0 < INR k) by (apply lt_0_INR; lia). exists (h ^ k). split.
    + split; [apply pow_le; lra|]. rewrite <- (pow1 k). apply pow_incr. lra.
    + unfold root_pow. assert (0 < h ^ k) by (apply pow_lt; lra).
      destruct (Reqb (h ^ k) 0) eqn:E; [apply Reqb_true in E; lra|].
      rewrite <- Rpower_pow by lra. rewrite Rpower_mult. replace (INR k * (1 / INR k)) with 1 by (field; lra). apply Rpower_1. lra.
Qed.

(** ** Angles *)

Lemma circle_half c s : c ^ 2 + s ^ 2 = 1 -> 0 <= c -> exists t, - (PI / 2) <= t <= PI / 2 /\ cos t = c /\ sin t = s.
Proof.
  intros H Hc. assert (-1 <= s <= 1) by nra. exists (asin s). split; [apply asin_bound|]. split; [|apply sin_asin; lra].
  rewrite cos_asin by lra. rewrite Rsqr_pow2. replace (1 - s ^ 2) with (c ^ 2) by lra. rewrite <- Rsqr_pow2. now apply sqrt_Rsqr.
Qed.

Lemma circle_onto c s : c ^ 2 + s ^ 2 = 1 -> exists t, 0 <= t <= 1 /\ cos (2 * PI * t) = c /\ sin (2 * PI * t) = s.
Proof.
  intros H. pose proof PI_RGT_0 as Hpi.
  assert (exists t, 0 <= t <= 2 * PI /\ cos t = c /\ sin t = s) as (t & Ht & Hc & Hs).
  { destruct (Rle_dec 0 c) as [Hc|Hc].
    - destruct (circle_half c s H Hc) as (t & Ht & E1 & E2). destruct (Rle_dec 0 t).
      + exists t. split; [lra|auto].
      + exists (t + 2 * PI). split; [lra|]. replace (t + 2 * PI) with (t + 2 * INR 1 * PI) by (cbn; ring). now rewrite cos_period, sin_period.
    - destruct (circle_half (- c) (- s)) as (t & Ht & E1 & E2); [nra|lra|]. exists (t + PI). split; [lra|].
      rewrite neg_cos, neg_sin. lra. }
  exists (t / (2 * PI)). split.
  - split; [apply Rle_mult_inv_pos; lra|]. apply (Rmult_le_reg_r (2 * PI)); [lra|]. unfold Rdiv. rewrite Rmult_assoc, Rinv_l by lra. lra.
  - replace (2 * PI * (t / (2 * PI))) with t by (field; lra). auto.
Qed.

(** ** One extension step *)

Lemma extend_unit k u v x : 0 <= u <= 1 -> sumsq x = 1 -> sumsq (extend k u v x) = 1.
Proof.
  intros Hu Hx. unfold extend. set (h := root_pow u k). rewrite sumsq_app.
  fold (sumsq (map (fun a => a * h) x)). rewrite sumsq_scale, Hx.
  pose proof (root_pow_range u k Hu) as Hh. fold h in Hh. assert (0 <= 1 - h ^ 2 * 1) by nra.
  rewrite Rmax_right by lra. unfold sumsq, vsum. cbn [map fold_right]. set (q := sqrt _). set (p := 2 * PI * v).
  replace ((q * cos p) ^ 2 + ((q * sin p) ^ 2 + 0)) with (q ^ 2 * (Rsqr (sin p) + Rsqr (cos p))) by (unfold Rsqr; ring).
  rewrite sin2_cos2. unfold q. rewrite pow2_sqrt by lra. lra.
Qed.

Lemma extend_length k u v x : length (extend k u v x) = S (S (length x)).
Proof. unfold extend. rewrite app_length, map_length. cbn. lia. Qed.

Lemma extend_head k u v x d : 0 <= u <= 1 -> x <> [] -> 0 <= hd d x -> 0 <= hd d (extend k u v x).
Proof.
  intros Hu Hx H. destruct x as [|a x]; [congruence|]. cbn in *. pose proof (root_pow_range u k Hu). apply Rmult_le_pos; lra.
Qed.

(** Every unit vector with two more coordinates comes from a unit vector. *)
Lemma extend_onto k (w : list R) a b (fallback : list R) : (0 < k)%nat -> sumsq (w ++ [a; b]) = 1 -> length fallback = length w ->
  exists x u v, 0 <= u <= 1 /\ 0 <= v <= 1 /\ extend k u v x = w ++ [a; b] /\
    ((sumsq w <> 0 /\ x = map (fun c => c * / sqrt (sumsq w)) w) \/ (sumsq w = 0 /\ x = fallback)) /\
    (sumsq w <> 0 -> sumsq x = 1).
Proof.
  intros Hk H Hl. rewrite sumsq_app in H. assert (sumsq [a; b] = a ^ 2 + b ^ 2) as Eab by (unfold sumsq, vsum; cbn [map fold_right]; ring).
  rewrite Eab in H. pose proof (sumsq_nonneg w) as Hw. pose proof (pow2_ge_0 a). pose proof (pow2_ge_0 b).
  set (r := sqrt (a ^ 2 + b ^ 2)).
  assert (r ^ 2 = a ^ 2 + b ^ 2) as Hr by (unfold r; apply pow2_sqrt; lra).
  assert (exists v, 0 <= v <= 1 /\ r * cos (2 * PI * v) = a /\ r * sin (2 * PI * v) = b) as (v & Hv & Ea & Eb).
  { destruct (Req_dec r 0) as [Hz|Hz].
    - exists 0. split; [lra|]. rewrite Hz in *. assert (a ^ 2 = 0) by nra. assert (b ^ 2 = 0) by nra.
      assert (a = 0) by nra. assert (b = 0) by nra. subst. split; ring.
    - destruct (circle_onto (a / r) (b / r)) as (v & Hv & E1 & E2).
      { replace ((a / r) ^ 2 + (b / r) ^ 2) with ((a ^ 2 + b ^ 2) / r ^ 2) by (field; auto). rewrite Hr. field. rewrite <- Hr. now apply pow_nonzero. }
      exists v. split; auto. rewrite E1, E2. split; field; auto. }
  set (h := sqrt (sumsq w)).
  assert (h ^ 2 = sumsq w) as Hh by (unfold h; apply pow2_sqrt; lra).
  assert (0 <= h) as Hh0 by apply sqrt_pos. assert (0 <= r) as Hr0 by apply sqrt_pos.
  destruct (root_pow_onto h k Hk) as (u & Hu & Eu); [nra|].
  assert (forall x, map (fun c => c * h) x = w -> extend k u v x = w ++ [a; b]) as Hext.
  { intros x Ex. unfold extend. rewrite Eu, Ex. fold (sumsq w). rewrite Rmax_right by lra.
    replace (1 - sumsq w) with (a ^ 2 + b ^ 2) by lra. fold r. now rewrite Ea, Eb. }
  destruct (Req_dec (sumsq w) 0) as [Hz|Hz].
  - exists fallback, u, v. split; auto. split; auto. split; [|split; [right; auto|intros; contradiction]]. apply Hext.
    assert (h = 0) as -> by nra. apply (nth_ext _ _ 0 0); [now rewrite map_length|]. intros i Hi. rewrite map_length in Hi.
    rewrite (sumsq_zero w Hz (nth i w 0)) by (apply nth_In; lia).
    rewrite (nth_indep _ 0 (0 * 0)) by (now rewrite map_length). rewrite (map_nth (fun c => c * 0)). ring.
  - exists (map (fun c => c * / h) w), u, v. assert (h <> 0) by (intros E; rewrite E in Hh; cbn in Hh; lra).
    split; auto. split; auto. split; [|split; [left; auto|]].
    + apply Hext. rewrite map_map. rewrite <- (map_id w) at 2. apply map_ext. intros c. field. auto.
    + intros _. rewrite sumsq_scale, <- Hh. field. auto.
Qed.

(** ** The loops as recursion over pairs of coordinates *)

Fixpoint climb (k : nat) (prs : list (R * R)) (x : list R) : list R :=
  match prs with [] => x | (u, v) :: r => climb (S (S k)) r (extend k u v x) end.
Fixpoint pairs (l : list R) : list (R * R) := match l with u :: v :: r => (u, v) :: pairs r | _ => [] end.
Fixpoint flat (prs : list (R * R)) : list R := match prs with [] => [] | (u, v) :: r => u :: v :: flat r end.

Lemma pairs_flat prs : pairs (flat prs) = prs.
Proof. induction prs as [|[u v] r IH]; cbn; [reflexivity|]. now rewrite IH. Qed.
Lemma flat_length prs : length (flat prs) = (2 * length prs)%nat.
Proof. induction prs as [|[u v] r IH]; cbn in *; [reflexivity|]. lia. Qed.
Lemma pairs_length l : length (pairs l) = Nat.div2 (length l).
Proof.
  assert (forall n l, (length l <= n)%nat -> length (pairs l) = Nat.div2 (length l)) as G; [|eapply G; eauto].
  induction n as [|n IH]; intros [|u [|v r]] H; cbn in *; try reflexivity; try lia. rewrite IH by lia. reflexivity.
Qed.
Lemma pairs_In l p : In p (pairs l) -> In (fst p) l /\ In (snd p) l.
Proof.
  assert (forall n l, (length l <= n)%nat -> In p (pairs l) -> In (fst p) l /\ In (snd p) l) as G; [|eapply G; eauto].
  induction n as [|n IH]; intros [|u [|v r]] H Hp; cbn in *; try lia; try contradiction.
  destruct Hp as [<-|Hp]; [cbn; auto|]. destruct (IH r ltac:(lia) Hp). auto.
Qed.

Lemma climb_app prs1 : forall k prs2 x, climb k (prs1 ++ prs2) x = climb (k + 2 * length prs1) prs2 (climb k prs1 x).
Proof.
  induction prs1 as [|[u v] r IH]; intros k prs2 x; cbn [app climb length].
  - f_equal. lia.
  - rewrite IH. f_equal. lia.
Qed.

(** The index loops of utils.py read the pairs that follow the first [o] coordinates. *)
Lemma loop_climb (key : nat -> nat) (U : list R) : forall m s o x,
  (forall i, (s <= i)%nat -> key (S i) = S (S (key i))) -> length U = (o + 2 * m)%nat ->
  fold_left (fun x i => extend (key i) (nth (o + 2 * (i - s)) U 0) (nth (o + 2 * (i - s) + 1) U 0) x) (seq s m) x =
  climb (key s) (pairs (skipn o U)) x.
Proof.
  intros m s o x Hkey HU.
  assert (forall m j x, length U = (o + 2 * (j + m))%nat ->
    fold_left (fun x i => extend (key i) (nth (o + 2 * (i - s)) U 0) (nth (o + 2 * (i - s) + 1) U 0) x) (seq (s + j) m) x =
    climb (key (s + j)%nat) (pairs (skipn (o + 2 * j) U)) x) as G.
  { clear m x HU. induction m as [|m IH]; intros j x HU; cbn [seq fold_left].
    - rewrite skipn_all2 by lia. reflexivity.
    - assert (exists u v, skipn (o + 2 * j) U = u :: v :: skipn (o + 2 * S j) U /\
        nth (o + 2 * j) U 0 = u /\ nth (o + 2 * j + 1) U 0 = v) as (u & v & E & Eu & Ev).
      { exists (nth (o + 2 * j) U 0), (nth (o + 2 * j + 1) U 0). split; auto.
        assert (forall p, (p < length U)%nat -> skipn p U = nth p U 0 :: skipn (S p) U) as Hsk.
        { clear. induction U as [|a U IH]; intros [|p] Hp; cbn in *; try lia; auto. apply IH. lia. }
        rewrite Hsk by lia. rewrite (Hsk (S (o + 2 * j))) by lia. f_equal. f_equal; [f_equal; lia|f_equal; lia]. }
      rewrite E. cbn [pairs climb]. replace (s + j - s)%nat with j by lia. rewrite Eu, Ev.
      replace (S (s + j))%nat with (s + S j)%nat by lia. rewrite IH by lia. f_equal. replace (s + S j)%nat with (S (s + j)) by lia. apply Hkey. lia. }
  specialize (G m 0%nat x). rewrite !Nat.add_0_r in G. apply G. lia.
Qed.

Lemma fold_left_ext_In {A B} (f g : A -> B -> A) l : (forall a b, In b l -> f a b = g a b) -> forall a, fold_left f l a = fold_left g l a.
Proof.
  induction l as [|b l IH]; intros H a; cbn; [reflexivity|]. rewrite H by (now left). apply IH. intros; apply H; now right.
Qed.

(** The three starting points, and the coordinates they use. *)
Definition start (half : bool) (U : list R) : list R * nat :=
  if Nat.even (1 + length U) then
    (let phi := if half then PI * (nth 0 U 0 - 1 / 2) else 2 * PI * nth 0 U 0 in [cos phi; sin phi], 1%nat)
  else if half then ([1], 0%nat)
  else (let phi := acos (2 * nth 0 U 0 - 1) in
        let theta := 2 * PI * nth 1 U 0 in [sin phi * cos theta; sin phi * sin theta; cos phi], 2%nat).

Lemma sphere_climb half U : U <> [] ->
  sphere_raw half U = climb (length (fst (start half U))) (pairs (skipn (snd (start half U)) U)) (fst (start half U)) /\
  (exists m, length U = snd (start half U) + 2 * m /\ length (fst (start half U)) = 1 + snd (start half U))%nat.
Proof.
  intros HU. assert (1 <= length U)%nat as Hl by (destruct U; [congruence|cbn; lia]).
  unfold sphere_raw, start. destruct (Nat.even (1 + length U)) eqn:E.
  - apply Nat.even_spec in E as (q & Eq). cbn [fst snd length]. split.
    + rewrite <- (loop_climb (fun i => 2 * i)%nat U (q - 1) 1 1).
      * replace ((1 + length U) / 2 - 1)%nat with (q - 1)%nat by (rewrite Eq, Nat.mul_comm, Nat.div_mul; lia).
        apply fold_left_ext_In. intros x i Hi. apply in_seq in Hi. f_equal; f_equal; lia.
      * intros i _. lia.
      * lia.
    + exists (q - 1)%nat. lia.
  - assert (Nat.odd (1 + length U) = true) as Ho by (unfold Nat.odd; now rewrite E). apply Nat.odd_spec in Ho as (q & Eq).
    assert (((1 + length U + 1) / 2)%nat = (q + 1)%nat) as Ed by (replace (1 + length U + 1)%nat with ((q + 1) * 2)%nat by lia; now rewrite Nat.div_mul).
    rewrite Ed. destruct half; cbn [fst snd length].
    + split.
      * rewrite <- (loop_climb (fun i => 2 * i - 1)%nat U q 1 0).
        -- replace (q + 1 - 1)%nat with q by lia. apply fold_left_ext_In. intros x i Hi. apply in_seq in Hi. f_equal; f_equal; lia.
        -- intros i Hi. lia.
        -- lia.
      * exists q. lia.
    + split.
      * rewrite <- (loop_climb (fun i => 2 * i - 1)%nat U (q - 1) 2 2).
        -- replace (q + 1 - 2)%nat with (q - 1)%nat by lia. apply fold_left_ext_In. intros x i Hi. apply in_seq in Hi. f_equal; f_equal; lia.
        -- intros i Hi. lia.
        -- lia.
      * exists (q - 1)%nat. lia.
Qed.

Definition in_cube (U : list R) : Prop := forall u, In u U -> 0 <= u <= 1.

Lemma climb_props prs : forall k x, (forall p, In p prs -> 0 <= fst p <= 1) -> sumsq x = 1 -> x <> [] ->
  sumsq (climb k prs x) = 1 /\ length (climb k prs x) = (length x + 2 * length prs)%nat /\
  (0 <= hd 0 x -> 0 <= hd 0 (climb k prs x)).
Proof.
  induction prs as [|[u v] r IH]; intros k x Hp Hx Hn; cbn [climb length].
  - split; [auto|]. split; [lia|auto].
  - assert (0 <= u <= 1) as Hu by (apply (Hp (u, v)); now left).
    destruct (IH (S (S k)) (extend k u v x)) as (H1 & H2 & H3).
    + intros p Hin. apply Hp. now right.
    + now apply extend_unit.
    + intros E. apply (f_equal (@length R)) in E. rewrite extend_length in E. discriminate.
    + split; [auto|]. rewrite extend_length in H2. split; [lia|]. intros H. apply H3. now apply extend_head.
Qed.

Lemma start_props half U : in_cube U -> U <> [] ->
  sumsq (fst (start half U)) = 1 /\ fst (start half U) <> [] /\ (half = true -> 0 <= hd 0 (fst (start half U))).
Proof.
  intros HU Hn. assert (0 <= nth 0 U 0 <= 1) as H0 by (apply HU, nth_In; destruct U; [congruence|cbn; lia]).
  unfold start. destruct (Nat.even _); [|destruct half]; cbn [fst hd].
  - split; [|split; [discriminate|]].
    + unfold sumsq, vsum. cbn [map fold_right]. set (p := if half then _ else _). pose proof (sin2_cos2 p) as E. unfold Rsqr in E. lra.
    + intros ->. pose proof PI_RGT_0. apply cos_ge_0; nra.
  - split; [|split; [discriminate|intros _; lra]]. unfold sumsq, vsum. cbn. ring.
  - split; [|split; [discriminate|discriminate]]. unfold sumsq, vsum. cbn [map fold_right]. set (p := acos _). set (q := 2 * PI * _).
    pose proof (sin2_cos2 p) as Ep. pose proof (sin2_cos2 q) as Eq. unfold Rsqr in *.
    replace ((sin p * cos q) ^ 2 + ((sin p * sin q) ^ 2 + (cos p ^ 2 + 0))) with (sin p * sin p * (sin q * sin q + cos q * cos q) + cos p * cos p) by ring.
    rewrite Eq. lra.
Qed.

Lemma skipn_In {A} (a : A) n l : In a (skipn n l) -> In a l.
Proof. revert n. induction l as [|b l IH]; intros [|n] H; cbn in *; auto. right. eauto. Qed.

Lemma sphere_raw_props half U : in_cube U -> U <> [] ->
  sumsq (sphere_raw half U) = 1 /\ length (sphere_raw half U) = (1 + length U)%nat /\ (half = true -> 0 <= hd 0 (sphere_raw half U)).
Proof.
  intros HU Hn. destruct (sphere_climb half U Hn) as (-> & m & Em & Ek). destruct (start_props half U HU Hn) as (S1 & S2 & S3).
  destruct (climb_props (pairs (skipn (snd (start half U)) U)) (length (fst (start half U))) (fst (start half U))) as (C1 & C2 & C3); auto.
  { intros p Hp. apply pairs_In in Hp as [Hp _]. apply skipn_In in Hp. auto. }
  split; [auto|]. split; [|auto]. rewrite C2, Ek, pairs_length, skipn_length, Em.
  replace (snd (start half U) + 2 * m - snd (start half U))%nat with (2 * m)%nat by lia. rewrite Nat.div2_double. lia.
Qed.

Lemma cube_checks U : in_cube U <-> forallb (fun u => Rgeb u 0) U && forallb (fun u => Rleb u 1) U = true.
Proof.
  rewrite andb_true_iff, !forallb_forall. unfold Rgeb, Rleb, in_cube. split.
  - intros H. split; intros u Hu; specialize (H u Hu); destruct (Rle_dec _ _); auto; lra.
  - intros [H1 H2] u Hu. specialize (H1 u Hu). specialize (H2 u Hu). destruct (Rle_dec 0 u); [|discriminate]. destruct (Rle_dec u 1); [|discriminate]. lra.
Qed.

Lemma div_one x : map (fun a => a / 1) x = x.
Proof. rewrite <- (map_id x) at 2. apply map_ext. intros a. field. Qed.

Lemma sphere_ok half U : in_cube U -> U <> [] -> sphere half U = Ok (sphere_raw half U).
Proof.
  intros HU Hn. unfold sphere. rewrite (proj1 (cube_checks U) HU). destruct U as [|u U']; [congruence|].
  destruct (sphere_raw_props half (u :: U') HU Hn) as (H1 & _). cbv zeta. rewrite norm_one by auto. now rewrite div_one.
Qed.

(** ** Every point is reached *)

Lemma climb_onto (B : list R -> Prop) (good : list R -> Prop) k0 : (0 < k0)%nat ->
  (forall x, length x = k0 -> sumsq x = 1 -> good x -> B x) ->
  (forall w a b c, w <> [] -> 0 < c -> good (w ++ [a; b]) -> good (map (fun e => e * c) w)) ->
  (forall k, good (1 :: repeat 0 k)) ->
  forall m v, length v = (k0 + 2 * m)%nat -> sumsq v = 1 -> good v ->
  exists base prs, B base /\ length prs = m /\ (forall p, In p prs -> 0 <= fst p <= 1 /\ 0 <= snd p <= 1) /\ climb k0 prs base = v.
Proof.
  intros Hk0 HB Hgood Hone. induction m as [|m IH]; intros v Hl Hs Hg.
  - exists v, []. split; [apply HB; auto; lia|]. split; [reflexivity|]. split; [intros p []|reflexivity].
  - assert (exists w a b, v = w ++ [a; b] /\ length w = (k0 + 2 * m)%nat) as (w & a & b & -> & Hw).
    { exists (firstn (k0 + 2 * m) v). pose proof (firstn_skipn (k0 + 2 * m) v) as E. pose proof (skipn_length (k0 + 2 * m) v) as El.
      destruct (skipn (k0 + 2 * m) v) as [|a [|b [|]]]; cbn in El; try lia. exists a, b. split; [congruence|]. rewrite firstn_length. lia. }
    assert (w <> []) as Hne by (destruct w; [cbn in Hw; lia|discriminate]).
    destruct (extend_onto (k0 + 2 * m) w a b (1 :: repeat 0 (k0 + 2 * m - 1))) as (x & u & t & Hu & Ht & E & Hx & Hsx); [lia|auto| |].
    { cbn. rewrite repeat_length. lia. }
    assert (length x = (k0 + 2 * m)%nat /\ sumsq x = 1 /\ good x) as (X1 & X2 & X3).
    { destruct Hx as [[Hz ->]|[Hz ->]].
      - split; [now rewrite map_length|]. split; [auto|]. apply (Hgood w a b); auto.
        apply Rinv_0_lt_compat, sqrt_lt_R0. pose proof (sumsq_nonneg w). lra.
      - split; [cbn; rewrite repeat_length; lia|]. split; [|apply Hone].
        change (1 :: repeat 0 (k0 + 2 * m - 1)) with ([1] ++ repeat 0 (k0 + 2 * m - 1)). rewrite sumsq_app.
        assert (forall n, sumsq (repeat 0 n) = 0) as ->; [|unfold sumsq, vsum; cbn; ring].
        induction n as [|n IHn]; unfold sumsq, vsum in *; cbn [repeat map fold_right] in *; [reflexivity|]. rewrite IHn. ring. }
    destruct (IH x X1 X2 X3) as (base & prs & P1 & P2 & P3 & P4).
    exists base, (prs ++ [(u, t)]). split; [auto|]. split; [rewrite app_length; cbn; lia|]. split.
    + intros p Hp. apply in_app_or in Hp as [Hp|[<-|[]]]; auto.
    + rewrite climb_app, P4, P2. cbn [climb]. exact E.
Qed.

Lemma hd_map_mult w c : 0 < c -> 0 <= hd 0 w -> 0 <= hd 0 (map (fun e => e * c) w).
Proof. destruct w as [|a w]; cbn; intros; [lra|]. apply Rmult_le_pos; lra. Qed.

Lemma sphere_onto half v : (2 <= length v)%nat -> sumsq v = 1 -> (half = true -> 0 <= hd 0 v) ->
  exists U, in_cube U /\ (1 + length U = length v)%nat /\ sphere_raw half U = v.
Proof.
  intros Hl Hs Hh. set (good := fun x : list R => half = true -> 0 <= hd 0 x).
  assert (forall w a b c, w <> [] -> 0 < c -> good (w ++ [a; b]) -> good (map (fun e => e * c) w)) as G1.
  { intros w a b c Hw Hc H E. apply hd_map_mult; auto. specialize (H E). destruct w; [congruence|exact H]. }
  assert (forall k, good (1 :: repeat 0 k)) as G2 by (intros k _; cbn; lra).
  assert (forall base pre prs, (forall p, In p prs -> 0 <= fst p <= 1 /\ 0 <= snd p <= 1) -> in_cube pre ->
    length v = (length base + 2 * length prs)%nat -> length base = (1 + length pre)%nat -> climb (length base) prs base = v ->
    start half (pre ++ flat prs) = (base, length pre) ->
    exists U, in_cube U /\ (1 + length U = length v)%nat /\ sphere_raw half U = v) as Finish.
  { intros base pre prs Hp Hc Hlen Hb Hcl Hst. exists (pre ++ flat prs). split; [|split].
    - intros u Hu. apply in_app_or in Hu as [Hu|Hu]; [auto|]. clear -Hp Hu. induction prs as [|[a b] r IH]; [destruct Hu|].
      cbn in Hu. destruct Hu as [<-|[<-|Hu]]; [apply (Hp (a, b)); now left|apply (Hp (a, b)); now left|]. apply IH; auto. intros p H; apply Hp; now right.
    - rewrite app_length, flat_length. lia.
    - assert (pre ++ flat prs <> []) as Hn by (intros E; apply (f_equal (@length R)) in E; rewrite app_length, flat_length in E; cbn in E; lia).
      destruct (sphere_climb half (pre ++ flat prs) Hn) as (-> & _). rewrite Hst. cbn [fst snd].
      rewrite skipn_app, skipn_all, Nat.sub_diag, skipn_O. cbn [app]. now rewrite pairs_flat. }
  destruct (Nat.Even_or_Odd (length v)) as [(q & Eq)|(q & Eq)].
  - (* even *)
    destruct (climb_onto (fun x => exists u, 0 <= u <= 1 /\ x = (let phi := if half then PI * (u - 1 / 2) else 2 * PI * u in [cos phi; sin phi])) good 2) with (m := (q - 1)%nat) (v := v)
      as (base & prs & (u & Hu & Eb) & P2 & P3 & P4); auto; try lia.
    { intros x Hx Hsx Hg. destruct x as [|c [|s [|]]]; cbn in Hx; try lia. unfold sumsq, vsum in Hsx. cbn [map fold_right] in Hsx.
      destruct half.
      - destruct (circle_half c s) as (t & Ht & E1 & E2); [lra|exact (Hg eq_refl)|]. pose proof PI_RGT_0.
        exists (t / PI + 1 / 2). split.
        + assert (- (1 / 2) <= t / PI <= 1 / 2); [|lra]. split.
          * apply (Rmult_le_reg_r PI); [lra|]. unfold Rdiv at 2. rewrite Rmult_assoc, Rinv_l by lra. lra.
          * apply (Rmult_le_reg_r PI); [lra|]. unfold Rdiv at 1. rewrite Rmult_assoc, Rinv_l by lra. lra.
        + cbv zeta. replace (PI * (t / PI + 1 / 2 - 1 / 2)) with t by (field; lra). now rewrite E1, E2.
      - destruct (circle_onto c s) as (t & Ht & E1 & E2); [lra|]. exists t. split; auto. cbv zeta. now rewrite E1, E2. }
    assert (length base = 2%nat) as Lb by (rewrite Eb; reflexivity).
    apply (Finish base [u] prs); auto.
    + intros a [<-|[]]. auto.
    + lia.
    + now rewrite Lb.
    + unfold start. cbn [app length]. rewrite flat_length, P2.
      replace (Nat.even (1 + S (2 * (q - 1)))) with true. 2: { symmetry. apply Nat.even_spec. exists q. lia. }
      cbn [nth]. now rewrite Eb.
  - (* odd *)
    destruct half.
    + destruct (climb_onto (fun x => x = [1]) good 1) with (m := q) (v := v) as (base & prs & Eb & P2 & P3 & P4); auto; try lia.
      { intros x Hx Hsx Hg. destruct x as [|c [|]]; cbn in Hx; try lia. unfold sumsq, vsum in Hsx. cbn [map fold_right] in Hsx.
        specialize (Hg eq_refl). cbn in Hg. assert (c = 1) as -> by nra. reflexivity. }
      subst base. apply (Finish [1] [] prs); auto.
      * intros a [].
      * cbn. lia.
      * unfold start. cbn [app]. rewrite flat_length, P2.
        replace (Nat.even (1 + 2 * q)) with false; [reflexivity|]. symmetry. apply not_true_is_false. intros E. apply Nat.even_spec in E as (z & E). lia.
    + destruct (climb_onto (fun x => exists u t, 0 <= u <= 1 /\ 0 <= t <= 1 /\
          x = (let phi := acos (2 * u - 1) in let theta := 2 * PI * t in [sin phi * cos theta; sin phi * sin theta; cos phi])) good 3)
        with (m := (q - 1)%nat) (v := v) as (base & prs & (u & t & Hu & Ht & Eb) & P2 & P3 & P4); auto; try lia.
      { intros x Hx Hsx _. destruct x as [|a [|b [|z [|]]]]; cbn in Hx; try lia. unfold sumsq, vsum in Hsx. cbn [map fold_right] in Hsx.
        assert (-1 <= z <= 1) as Hz by nra. set (p := acos z).
        assert (cos p = z) as Ec by (apply cos_acos; auto).
        assert (sin p ^ 2 = a ^ 2 + b ^ 2) as Es by (pose proof (sin2_cos2 p) as E; unfold Rsqr in E; rewrite Ec in E; lra).
        assert (exists t, 0 <= t <= 1 /\ sin p * cos (2 * PI * t) = a /\ sin p * sin (2 * PI * t) = b) as (t & Ht & Ea & Eb).
        { destruct (Req_dec (sin p) 0) as [Hz0|Hz0].
          - exists 0. split; [lra|]. rewrite Hz0 in *. assert (a = 0) as -> by nra. assert (b = 0) as -> by nra. split; ring.
          - destruct (circle_onto (a / sin p) (b / sin p)) as (t & Ht & E1 & E2).
            { replace ((a / sin p) ^ 2 + (b / sin p) ^ 2) with ((a ^ 2 + b ^ 2) / sin p ^ 2) by (field; auto). rewrite <- Es. field. auto. }
            exists t. split; auto. rewrite E1, E2. split; field; auto. }
        exists ((z + 1) / 2), t. split; [lra|]. split; [auto|]. cbv zeta. replace (2 * ((z + 1) / 2) - 1) with z by field. fold p. now rewrite Ea, Eb, Ec. }
      assert (length base = 3%nat) as Lb by (rewrite Eb; reflexivity).
      apply (Finish base [u; t] prs); auto.
      * intros a [<-|[<-|[]]]; auto.
      * lia.
      * now rewrite Lb.
      * unfold start. cbn [app length]. rewrite flat_length, P2.
        replace (Nat.even (1 + S (S (2 * (q - 1))))) with false.
        2: { symmetry. apply not_true_is_false. intros E. apply Nat.even_spec in E as (w & E). lia. }
        cbn [nth]. now rewrite Eb.
Qed.

Lemma nth_hd {A} (l : list A) d : nth 0 l d = hd d l.
Proof. now destruct l. Qed.

Lemma sphere_unit half U : Forall (fun u => 0 <= u <= 1) U -> U <> [] ->
  norm (sphere_raw half U) = 1 /\
  exists v, sphere half U = Ok v /\ length v = (1 + length U)%nat /\ vsum (map (fun a => a ^ 2) v) = 1 /\
    (half = true -> 0 <= nth 0 v 0) /\ unit_vec v = v.
Proof.
  intros HU Hn. rewrite Forall_forall in HU. destruct (sphere_raw_props half U HU Hn) as (H1 & H2 & H3).
  split; [now apply norm_one|]. exists (sphere_raw half U). split; [now apply sphere_ok|]. split; [auto|]. split; [exact H1|].
  split; [rewrite nth_hd; auto|]. unfold unit_vec. destruct (forallb _ _) eqn:E.
  - exfalso. rewrite forallb_forall in E. assert (sumsq (sphere_raw half U) = 0); [|lra].
    clear -E. induction (sphere_raw half U) as [|a l IH]; unfold sumsq, vsum in *; cbn [map fold_right] in *; [reflexivity|].
    rewrite IH by (intros; apply E; now right). assert (a = 0) as ->; [|ring].
    specialize (E a (or_introl eq_refl)). unfold Reqb in E. destruct (Req_EM_T a 0); [auto|discriminate].
  - rewrite norm_one by auto. apply div_one.
Qed.

Lemma sphere_reaches half v : (2 <= length v)%nat -> vsum (map (fun a => a ^ 2) v) = 1 -> (half = true -> 0 <= nth 0 v 0) ->
  exists U, Forall (fun u => 0 <= u <= 1) U /\ (1 + length U = length v)%nat /\ sphere half U = Ok v.
Proof.
  intros Hl Hs Hh. destruct (sphere_onto half v Hl Hs) as (U & HU & HL & E); [rewrite <- nth_hd; auto|].
  exists U. split; [now apply Forall_forall|]. split; [auto|]. rewrite sphere_ok; [congruence|auto|intros ->; cbn in HL; lia].
Qed.

Lemma sphere_orientations v : (2 <= length v)%nat -> vsum (map (fun a => a ^ 2) v) = 1 ->
  exists U, Forall (fun u => 0 <= u <= 1) U /\ (sphere true U = Ok v \/ sphere true U = Ok (map Ropp v)).
Proof.
  intros Hl Hs. destruct (Rle_dec 0 (nth 0 v 0)) as [H|H].
  - destruct (sphere_reaches true v) as (U & HU & _ & E); auto. exists U. auto.
  - destruct (sphere_reaches true (map Ropp v)) as (U & HU & _ & E).
    + now rewrite map_length.
    + rewrite map_map, <- Hs. f_equal. apply map_ext. intros a. ring.
    + intros _. destruct v; cbn in *; [lia|lra].
    + exists U. auto.
Qed.

Lemma sphere_outside half U : ~ Forall (fun u => 0 <= u <= 1) U -> sphere half U = Err AssertionError.
Proof.
  intros H. unfold sphere. destruct (_ && _) eqn:E; [|reflexivity]. exfalso. apply H, Forall_forall. now apply cube_checks.
Qed.
