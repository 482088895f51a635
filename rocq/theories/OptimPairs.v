(** * OptimPairs: the optimizer that connects two points of different classes. *)
From Coq Require Import Reals Lra.
From Verif Require Import Prelude Tree Perp RealOps Lists Clf Reg Api Hyper Optim OptimProofs OptimLemmas.
Local Open Scope R_scope.

Lemma class_indices_In ys c i : In i (class_indices ys c) <-> nth_error ys i = Some (IZR c).
Proof.
  unfold class_indices. rewrite np_where_In, nth_error_map. destruct (nth_error ys i) as [a|]; cbn; [|split; discriminate].
  split; intros H; f_equal; inversion H; [now apply Reqb_true|apply Reqb_refl].
Qed.

Section TwoPoint.
Variables (rnd : nat -> Z -> Z) (obj : list R -> res R) (X : list (list R)) (ys : list R).
Hypothesis Hrnd : forall k n, (0 < n)%Z -> (0 <= rnd k n < n)%Z.
Notation nc := (n_classes ys).

(** Any property of the points evaluated. *)
Variable I : list R -> Prop.
Definition all_I (s : rstate) : Prop := Forall I (r_evals s).

Lemma randint_triple n (Q : rstate -> Prop) : (forall s k, Q s -> Q (mkR k (r_evals s))) ->
  triple Q (randint rnd n) (fun c s => (0 <= c < n)%Z /\ Q s) (fun e s => (e = ValueError /\ (n <= 0)%Z) /\ Q s).
Proof.
  intros HQ s Hs. unfold randint. destruct (n <=? 0)%Z eqn:E; [apply Z.leb_le in E; auto|]. apply Z.leb_gt in E. split; [now apply Hrnd|]. apply HQ, Hs.
Qed.

Definition stopped (e : exn) (s : rstate) : Prop := (e = OutOfFuel \/ (e = ValueError /\ (nc <= 0)%Z)) /\ all_I s.

Lemma draw_other_triple fuel : forall class1,
  triple all_I (draw_other rnd ys fuel class1) (fun c s => (0 <= c < nc)%Z /\ c <> class1 /\ all_I s) stopped.
Proof.
  induction fuel as [|fuel IH]; intros class1; cbn [draw_other].
  - apply triple_raise. intros s Hs. split; auto.
  - eapply triple_bind with (Q := fun c s => (0 <= c < nc)%Z /\ all_I s).
    + eapply triple_conseq; [apply (randint_triple nc all_I); intros ? ? H; exact H| | |]; auto.
      intros e s [H1 H2]. split; auto.
    + intros c. cbv beta. destruct (c =? class1)%Z eqn:E.
      * eapply triple_conseq; [apply IH| | |]; auto. intros s [_ H]. exact H.
      * apply Z.eqb_neq in E. apply triple_ret. intros s [H1 H2]. auto.
Qed.

Definition picked (ii : list nat * list nat) : Prop :=
  exists c1 c2, (0 <= c1 < nc)%Z /\ (0 <= c2 < nc)%Z /\ c1 <> c2 /\ fst ii = class_indices ys c1 /\ snd ii = class_indices ys c2 /\
    fst ii <> [] /\ snd ii <> [].

Lemma draw_classes_triple inner fuel :
  triple all_I (draw_classes rnd ys fuel inner) (fun ii s => picked ii /\ all_I s) stopped.
Proof.
  induction fuel as [|fuel IH]; cbn [draw_classes].
  - apply triple_raise. intros s Hs. split; auto.
  - eapply triple_bind with (Q := fun c s => (0 <= c < nc)%Z /\ all_I s).
    + eapply triple_conseq; [apply (randint_triple nc all_I); intros ? ? H; exact H| | |]; auto. intros e s [H1 H2]. split; auto.
    + intros c1 s [Hc1 Hs]. unfold bind. pose proof (draw_other_triple inner c1 s Hs) as H.
      destruct (draw_other rnd ys inner c1 s) as [[c2|e] s1]; [|exact H]. destruct H as (H1 & H2 & H3).
      destruct (length (class_indices ys c1) =? 0)%nat eqn:E1; [cbn [orb]; exact (IH s1 H3)|].
      destruct (length (class_indices ys c2) =? 0)%nat eqn:E2; [cbn [orb]; exact (IH s1 H3)|].
      cbn [orb ret]. split; [|auto]. exists c1, c2. apply Nat.eqb_neq in E1, E2.
      split; [auto|]. split; [auto|]. split; [auto|]. split; [reflexivity|]. split; [reflexivity|]. cbn [fst snd].
      split; intros E; rewrite E in *; cbn in *; lia.
Qed.

(** The points evaluated. *)
Definition pair_point (v : list R) : Prop :=
  exists i j a b, nth_error ys i = Some a /\ nth_error ys j = Some b /\ a <> b /\
    (v = map2 Rminus (nth j X []) (nth i X []) \/ v = map Ropp (map2 Rminus (nth j X []) (nth i X []))) /\ 0 <= nth 0 v 0.

Lemma step_points ii k1 k2 : picked ii -> (0 <= k1 < Z.of_nat (length (fst ii)))%Z -> (0 <= k2 < Z.of_nat (length (snd ii)))%Z ->
  let p1 := nth (nth (Z.to_nat k1) (fst ii) 0%nat) X [] in
  let p2 := nth (nth (Z.to_nat k2) (snd ii) 0%nat) X [] in
  let normal := map2 Rminus p2 p1 in
  pair_point (if Rltb (nth 0 normal 0) 0 then map (fun a => a * -1) normal else normal).
Proof.
  intros (c1 & c2 & H1 & H2 & H3 & E1 & E2 & _ & _) Hk1 Hk2. cbv zeta. set (i := nth (Z.to_nat k1) (fst ii) 0%nat). set (j := nth (Z.to_nat k2) (snd ii) 0%nat).
  exists i, j, (IZR c1), (IZR c2).
  split; [apply class_indices_In; rewrite <- E1; apply nth_In; lia|]. split; [apply class_indices_In; rewrite <- E2; apply nth_In; lia|].
  split; [intros E; apply eq_IZR in E; auto|]. set (nrm := map2 Rminus (nth j X []) (nth i X [])).
  destruct (Rltb (nth 0 nrm 0) 0) eqn:E.
  - split; [right; apply map_ext; intros a; ring|]. apply Rltb_true in E. destruct nrm; cbn in *; lra.
  - split; [now left|]. now apply Rltb_false in E.
Qed.
End TwoPoint.

Section TwoPoint2.
Variables (rnd : nat -> Z -> Z) (obj : list R -> res R) (X : list (list R)) (ys : list R).
Hypothesis Hrnd : forall k n, (0 < n)%Z -> (0 <= rnd k n < n)%Z.
Notation nc := (n_classes ys).

Lemma randint_ok n s : (0 < n)%Z -> randint rnd n s = (Ok (rnd (r_draws s) n), mkR (S (r_draws s)) (r_evals s)).
Proof. intros H. unfold randint. destruct (n <=? 0)%Z eqn:E; [apply Z.leb_le in E; lia|reflexivity]. Qed.

Lemma picked_lengths ii : picked ys ii -> (0 < Z.of_nat (length (fst ii)))%Z /\ (0 < Z.of_nat (length (snd ii)))%Z.
Proof. intros (c1 & c2 & _ & _ & _ & _ & _ & H1 & H2). destruct (fst ii), (snd ii); cbn; try congruence; lia. Qed.

Lemma two_point_step_safe fuel s : Forall (pair_point X ys) (r_evals s) ->
  Forall (pair_point X ys) (r_evals (snd (two_point_step rnd obj X ys fuel s))).
Proof.
  intros Hs. unfold two_point_step. unfold bind at 1.
  pose proof (draw_classes_triple rnd ys Hrnd (pair_point X ys) fuel fuel s Hs) as H.
  destruct (draw_classes rnd ys fuel fuel s) as [[ii|e] s1]; [|cbn; apply H]. destruct H as [Hp H1].
  destruct (picked_lengths ii Hp) as [L1 L2]. unfold bind at 1. rewrite (randint_ok _ s1 L1). cbn [r_draws r_evals].
  unfold bind at 1. rewrite (randint_ok _ _ L2). cbn [r_draws r_evals]. unfold bind, evaluate, ret. cbn [r_draws r_evals].
  pose proof (step_points X ys ii (rnd (r_draws s1) (Z.of_nat (length (fst ii)))) (rnd (S (r_draws s1)) (Z.of_nat (length (snd ii)))) Hp
    (Hrnd _ _ L1) (Hrnd _ _ L2)) as Hpt. cbv zeta in Hpt.
  destruct (obj _); cbn [snd r_evals]; constructor; auto.
Qed.

Lemma two_point_points n_mc fuel : forall v, In v (points (two_point_solve rnd obj X ys n_mc fuel start_state)) -> pair_point X ys v.
Proof.
  intros v Hv. unfold points in Hv. apply in_rev in Hv. revert v Hv. apply Forall_forall. unfold two_point_solve.
  destruct (existsb _ _); [constructor|]. destruct (_ <=? _)%nat; [constructor|].
  assert (forall l s, Forall (pair_point X ys) (r_evals s) ->
    Forall (pair_point X ys) (r_evals (snd (for_each (A := nat) l (fun _ _ => two_point_step rnd obj X ys fuel) tt s)))) as H.
  { induction l as [|a l IH]; intros s Hs; cbn [for_each]; [exact Hs|]. unfold bind. pose proof (two_point_step_safe fuel s Hs) as H.
    destruct (two_point_step rnd obj X ys fuel s) as [[[]|e] s1]; [now apply IH|exact H]. }
  apply H. constructor.
Qed.

Lemma two_point_targets n_mc fuel s :
  (exists a, In a ys /\ forall z, a <> IZR z) -> two_point_solve rnd obj X ys n_mc fuel s = (Err TypeError, s).
Proof.
  intros (a & Ha & Hz). unfold two_point_solve. destruct (existsb _ ys) eqn:E; [reflexivity|]. exfalso.
  rewrite <- not_true_iff_false in E. apply E. apply existsb_exists. exists a. split; [auto|]. unfold is_integer, Reqb.
  destruct (Req_EM_T _ a) as [E'|]; [|reflexivity]. exfalso. apply (Hz (Int_part a)). auto.
Qed.

Lemma integers ys' : Forall (fun a => exists z, a = IZR z) ys' -> existsb (fun a => negb (is_integer a)) ys' = false.
Proof.
  intros H. apply not_true_iff_false. intros E. apply existsb_exists in E as (a & Ha & E). rewrite Forall_forall in H. destruct (H a Ha) as (z & ->).
  unfold is_integer, Reqb in E. destruct (Req_EM_T _ _) as [|n]; [discriminate|]. apply n. f_equal.
  unfold Int_part. rewrite <- (tech_up (IZR z) (z + 1)); [lia| |]; rewrite plus_IZR; lra.
Qed.
Lemma int_part_IZR z : Int_part (IZR z) = z.
Proof. unfold Int_part. rewrite <- (tech_up (IZR z) (z + 1)); [lia| |]; rewrite plus_IZR; lra. Qed.

Lemma two_point_constant n_mc fuel s : Forall (fun a => exists z, a = IZR z) ys -> (forall a b, In a ys -> In b ys -> a = b) ->
  two_point_solve rnd obj X ys n_mc fuel s = (Ok tt, s).
Proof.
  intros Hi Hc. unfold two_point_solve. rewrite integers by auto.
  replace (length (nodup Req_EM_T ys) <=? 1)%nat with true; [reflexivity|]. symmetry. apply Nat.leb_le.
  pose proof (NoDup_nodup Req_EM_T ys) as Hn. destruct (nodup Req_EM_T ys) as [|a [|b r]] eqn:E; cbn; try lia. exfalso.
  assert (In a ys /\ In b ys) as [Ha Hb] by (split; apply (nodup_In Req_EM_T); rewrite E; cbn; auto).
  inversion Hn; subst. apply H1. left. symmetry. auto.
Qed.

Lemma fold_max l : forall a, (a <= fold_left Rmax l a) /\ (forall b, In b l -> b <= fold_left Rmax l a) /\ (fold_left Rmax l a = a \/ In (fold_left Rmax l a) l).
Proof.
  induction l as [|b l IH]; intros a; cbn [fold_left]; [split; [lra|split; [intros b []|auto]]|].
  destruct (IH (Rmax a b)) as (H1 & H2 & H3). pose proof (Rmax_l a b). pose proof (Rmax_r a b).
  split; [lra|]. split.
  - intros c [<-|Hc]; [lra|auto].
  - destruct H3 as [E|H3]; [|right; now right]. rewrite E. unfold Rmax. destruct (Rle_dec a b); [right; now left|now left].
Qed.
Lemma n_classes_spec : ys <> [] -> Forall (fun a => exists z, a = IZR z) ys ->
  exists m, In (IZR m) ys /\ (forall z, In (IZR z) ys -> (z <= m)%Z) /\ nc = (m + 1)%Z.
Proof.
  intros Hn Hi. unfold n_classes. destruct ys as [|a l]; [congruence|]. destruct (fold_max l a) as (H1 & H2 & H3).
  assert (In (fold_left Rmax l a) (a :: l)) as Hin by (destruct H3 as [->|H3]; [now left|now right]).
  rewrite Forall_forall in Hi. destruct (Hi _ Hin) as (m & E). exists m. rewrite E in *. split; [auto|]. split; [|now rewrite int_part_IZR].
  intros z [Hz|Hz]; apply le_IZR; [rewrite <- Hz; auto|auto].
Qed.

Definition two_values : Prop := exists a b, In a ys /\ In b ys /\ a <> b.
Lemma many_values : two_values -> (length (nodup Req_EM_T ys) <=? 1)%nat = false.
Proof.
  intros (a & b & Ha & Hb & Hab). apply Nat.leb_gt. apply (nodup_In Req_EM_T) in Ha, Hb.
  destruct (nodup Req_EM_T ys) as [|c [|d r]]; cbn in *; try lia; intuition; subst; congruence.
Qed.

Lemma step_no_success fuel s (HQ : forall ii, ~ picked ys ii) :
  exists e s', two_point_step rnd obj X ys fuel s = (Err e, s') /\ (e = OutOfFuel \/ e = ValueError /\ (nc <= 0)%Z).
Proof.
  unfold two_point_step. unfold bind at 1.
  pose proof (draw_classes_triple rnd ys Hrnd (fun _ => True) fuel fuel s) as H.
  assert (all_I (fun _ => True) s) as Hs by (apply Forall_forall; auto). specialize (H Hs).
  destruct (draw_classes rnd ys fuel fuel s) as [[ii|e] s1]; [destruct H as [H _]; now apply HQ in H|].
  destruct H as [H _]. eauto.
Qed.

(** One non-negative target value only: no pair of classes is ever found. *)
Lemma two_point_never n_mc fuel s : Forall (fun a => exists z, a = IZR z) ys -> two_values -> (0 < n_mc)%nat ->
  (exists a, In a ys /\ 0 <= a) -> (forall a b, In a ys -> In b ys -> 0 <= a -> 0 <= b -> a = b) ->
  fst (two_point_solve rnd obj X ys n_mc fuel s) = Err OutOfFuel.
Proof.
  intros Hi H2 Hn (a & Ha & Ha0) Hu. unfold two_point_solve. rewrite integers by auto. rewrite many_values by auto.
  destruct n_mc as [|m]; [lia|]. apply (for_each_err _ _ _ 0%nat (seq 1 m)); [reflexivity|].
  destruct (step_no_success fuel s) as (e & s' & -> & He).
  - intros ii (c1 & c2 & R1 & R2 & Hne & E1 & E2 & N1 & N2). apply Hne.
    destruct (fst ii) as [|i l1]; [congruence|]. destruct (snd ii) as [|j l2]; [congruence|].
    assert (In i (class_indices ys c1)) as I1 by (rewrite <- E1; now left). assert (In j (class_indices ys c2)) as I2 by (rewrite <- E2; now left).
    apply class_indices_In in I1, I2. apply nth_error_In in I1, I2. apply eq_IZR, Hu; auto; apply IZR_le; lia.
  - destruct He as [->|[_ He]]; [reflexivity|]. exfalso. destruct n_classes_spec as (m' & M1 & M2 & M3); [intros E; rewrite E in Ha; destruct Ha|auto|].
    rewrite Forall_forall in Hi. destruct (Hi a Ha) as (z & ->). specialize (M2 z Ha). apply le_IZR in Ha0. lia.
Qed.
(** Negative targets only. *)
Lemma two_point_negative n_mc fuel s : Forall (fun a => exists z, a = IZR z) ys -> two_values -> (0 < n_mc)%nat -> (0 < fuel)%nat ->
  (forall a, In a ys -> a < 0) -> fst (two_point_solve rnd obj X ys n_mc fuel s) = Err ValueError.
Proof.
  intros Hi H2 Hn Hf Hneg. unfold two_point_solve. rewrite integers by auto. rewrite many_values by auto.
  destruct n_mc as [|m]; [lia|]. apply (for_each_err _ _ _ 0%nat (seq 1 m)); [reflexivity|].
  destruct n_classes_spec as (m' & M1 & M2 & M3); [destruct H2 as (a & b & Ha & _); intros E; rewrite E in Ha; destruct Ha|auto|].
  specialize (Hneg _ M1). apply lt_IZR in Hneg. destruct fuel; [lia|]. unfold two_point_step, bind. cbn [draw_classes]. unfold bind, randint.
  rewrite M3. replace (m' + 1 <=? 0)%Z with true by (symmetry; apply Z.leb_le; lia). reflexivity.
Qed.

(** Integer matrices: the first evaluation fails. *)
Lemma two_point_integer_matrix n_mc fuel s : (forall v, exists e, obj v = Err e) -> Forall (fun a => exists z, a = IZR z) ys -> two_values -> (0 < n_mc)%nat ->
  fst (two_point_solve rnd obj X ys n_mc fuel s) <> Ok tt.
Proof.
  intros Ho Hi H2 Hn. unfold two_point_solve. rewrite integers by auto. rewrite many_values by auto.
  destruct n_mc as [|m]; [lia|]. cbn [seq for_each]. unfold bind at 1.
  assert (exists e s', two_point_step rnd obj X ys fuel s = (Err e, s')) as (e & s' & ->); [|discriminate].
  unfold two_point_step. unfold bind at 1. destruct (draw_classes rnd ys fuel fuel s) as [[ii|e] s1]; [|eauto].
  unfold bind at 1. destruct (randint rnd _ s1) as [[k1|e] s2]; [|eauto]. unfold bind at 1. destruct (randint rnd _ s2) as [[k2|e] s3]; [|eauto].
  unfold bind, evaluate. destruct (Ho (if Rltb (nth 0 (map2 Rminus (nth (nth (Z.to_nat k2) (snd ii) 0%nat) X []) (nth (nth (Z.to_nat k1) (fst ii) 0%nat) X [])) 0) 0
     then map (fun a => a * -1) (map2 Rminus (nth (nth (Z.to_nat k2) (snd ii) 0%nat) X []) (nth (nth (Z.to_nat k1) (fst ii) 0%nat) X []))
     else map2 Rminus (nth (nth (Z.to_nat k2) (snd ii) 0%nat) X []) (nth (nth (Z.to_nat k1) (fst ii) 0%nat) X []))) as (e & ->). eauto.
Qed.

(** ** Termination *)
Section Block.
(** Draws [K] to [K+3] alternate between two classes that occur. *)
Variables (K : nat) (a b : Z).
Hypothesis Hab : a <> b.
Hypothesis Ha : class_indices ys a <> [].
Hypothesis Hb : class_indices ys b <> [].
Hypothesis HK : rnd K nc = a /\ rnd (K + 1) nc = b /\ rnd (K + 2) nc = a /\ rnd (K + 3) nc = b.
Hypothesis Hnc : (0 < nc)%Z.

Lemma draw_other_ends q : forall s c, (r_draws s <= q)%nat -> rnd q nc <> c ->
  exists q', (r_draws s <= q' <= q)%nat /\ rnd q' nc <> c /\ (rnd (r_draws s) nc <> c -> q' = r_draws s) /\
    forall fuel, (q < r_draws s + fuel)%nat -> draw_other rnd ys fuel c s = (Ok (rnd q' nc), mkR (S q') (r_evals s)).
Proof.
  intros s c. remember (q - r_draws s)%nat as m eqn:Em. revert s Em. induction m as [|m IH]; intros s Em Hle Hq.
  - assert (q = r_draws s) as -> by lia. exists (r_draws s). split; [lia|]. split; [auto|]. split; [auto|].
    intros [|fuel] Hf; [lia|]. cbn [draw_other]. unfold bind. rewrite randint_ok by auto. destruct (_ =? _)%Z eqn:E; [apply Z.eqb_eq in E; congruence|reflexivity].
  - destruct (Z.eq_dec (rnd (r_draws s) nc) c) as [E|E].
    + destruct (IH (mkR (S (r_draws s)) (r_evals s))) as (q' & Q1 & Q2 & Q3 & Q4); cbn [r_draws]; [lia|lia|auto|]. cbn [r_draws r_evals] in *.
      exists q'. split; [lia|]. split; [auto|]. split; [congruence|]. intros [|fuel] Hf; [lia|]. cbn [draw_other]. unfold bind. rewrite randint_ok by auto.
      apply Z.eqb_eq in E. rewrite E. apply Q4. lia.
    + exists (r_draws s). split; [lia|]. split; [auto|]. split; [auto|]. intros [|fuel] Hf; [lia|]. cbn [draw_other]. unfold bind. rewrite randint_ok by auto.
      apply Z.eqb_neq in E. rewrite E. reflexivity.
Qed.

Lemma nonempty_length {A} (l : list A) : l <> [] -> (length l =? 0)%nat = false.
Proof. destruct l; [congruence|reflexivity]. Qed.

Lemma draw_classes_ends m : forall s, (r_draws s <= K + 2)%nat -> (K + 2 - r_draws s <= m)%nat ->
  exists ii k, picked ys ii /\ forall fuel inner, (m < fuel)%nat -> (K + 4 <= inner)%nat ->
    draw_classes rnd ys fuel inner s = (Ok ii, mkR k (r_evals s)).
Proof.
  induction m as [m IH] using lt_wf_ind. intros s Hle Hm. destruct HK as (K0 & K1 & K2 & K3). set (p := r_draws s) in *.
  set (c1 := rnd p nc).
  assert (exists q, (S p <= q <= Nat.max (S p) (K + 1))%nat /\ rnd q nc <> c1) as (q & Hq & Hne).
  { destruct (Nat.lt_ge_cases p K) as [H|H].
    - destruct (Z.eq_dec a c1) as [E|E]; [exists (K + 1)%nat|exists K]; (split; [lia|congruence]).
    - exists (S p). split; [lia|]. assert (p = K \/ p = K + 1 \/ p = K + 2)%nat as Hp by lia. unfold c1.
      destruct Hp as [->|[->| ->]].
      + replace (S K) with (K + 1)%nat by lia. congruence.
      + replace (S (K + 1)) with (K + 2)%nat by lia. congruence.
      + replace (S (K + 2)) with (K + 3)%nat by lia. congruence. }
  destruct (draw_other_ends q (mkR (S p) (r_evals s)) c1) as (q' & Q1 & Q2 & Q3 & Q4); cbn [r_draws r_evals] in *; [lia|auto|].
  set (c2 := rnd q' nc) in *.
  destruct ((length (class_indices ys c1) =? 0)%nat || (length (class_indices ys c2) =? 0)%nat) eqn:E.
  - (* another attempt *)
    assert (p < K)%nat as HpK.
    { destruct (Nat.lt_ge_cases p K) as [H|H]; [auto|exfalso].
      assert (c1 = a /\ rnd (S p) nc = b \/ c1 = b /\ rnd (S p) nc = a) as Hc.
      { assert (p = K \/ p = K + 1 \/ p = K + 2)%nat as Hp by lia. unfold c1. destruct Hp as [->|[->| ->]].
        - replace (S K) with (K + 1)%nat by lia. auto.
        - replace (S (K + 1)) with (K + 2)%nat by lia. auto.
        - replace (S (K + 2)) with (K + 3)%nat by lia. auto. }
      assert (q' = S p) as Eq by (apply Q3; destruct Hc as [[-> ->]|[-> ->]]; auto).
      unfold c2 in E. rewrite Eq in E. destruct Hc as [[E1 E2]|[E1 E2]]; rewrite E1, E2 in E; rewrite !nonempty_length in E by auto; discriminate. }
    destruct (IH (m - 1)%nat) with (s := mkR (S q') (r_evals s)) as (ii & k & Hp & Hrun); cbn [r_draws r_evals] in *; try lia.
    exists ii, k. split; [auto|]. intros fuel inner Hf Hin. destruct fuel as [|fuel]; [lia|]. cbn [draw_classes]. unfold bind. rewrite randint_ok by auto.
    fold p. fold c1. rewrite Q4 by lia. rewrite E. apply Hrun; lia.
  - exists (class_indices ys c1, class_indices ys c2), (S q'). apply orb_false_iff in E as [E1 E2]. apply Nat.eqb_neq in E1, E2. split.
    + exists c1, c2. split; [now apply Hrnd|]. split; [now apply Hrnd|]. split; [auto|]. cbn [fst snd]. split; [auto|]. split; [auto|].
      split; intros Ez; [apply E1|apply E2]; now rewrite Ez.
    + intros fuel inner Hf Hin. destruct fuel as [|fuel]; [lia|]. cbn [draw_classes]. unfold bind. rewrite randint_ok by auto.
      fold p. fold c1. rewrite Q4 by lia. fold c2. apply Nat.eqb_neq in E1, E2. rewrite E1, E2. reflexivity.
Qed.
End Block.

(** Again and again the class draws alternate twice between two classes that occur. *)
Definition alternating : Prop := forall k, exists K a b, (k <= K)%nat /\ a <> b /\ (0 <= a)%Z /\ In (IZR a) ys /\ In (IZR b) ys /\
  rnd K nc = a /\ rnd (K + 1) nc = b /\ rnd (K + 2) nc = a /\ rnd (K + 3) nc = b.

Lemma occurs_class c : In (IZR c) ys -> class_indices ys c <> [].
Proof. intros H E. apply In_nth_error in H as (i & H). apply class_indices_In in H. rewrite E in H. destruct H. Qed.

Lemma two_point_ends n_mc s : alternating -> (forall v, exists z, obj v = Ok z) -> Forall (fun a => exists z, a = IZR z) ys ->
  exists bound s', forall fuel, (bound <= fuel)%nat -> two_point_solve rnd obj X ys n_mc fuel s = (Ok tt, s').
Proof.
  intros Halt Ho Hi. unfold two_point_solve. rewrite integers by auto. destruct (_ <=? 1)%nat; [exists 0%nat, s; auto|].
  assert ((0 < nc)%Z) as Hnc.
  { destruct (Halt 0%nat) as (K & a & b & _ & _ & Ha0 & H1 & _). destruct n_classes_spec as (m & M1 & M2 & M3); [intros E; rewrite E in H1; destruct H1|auto|].
    specialize (M2 a H1). lia. }
  assert (forall s, exists bound s', forall fuel, (bound <= fuel)%nat -> two_point_step rnd obj X ys fuel s = (Ok tt, s')) as Hstep.
  { intros s0. destruct (Halt (r_draws s0)) as (K & a & b & HK & Hab & Ha0 & Hia & Hib & HD).
    destruct (draw_classes_ends K a b Hab (occurs_class a Hia) (occurs_class b Hib) HD Hnc (K + 2 - r_draws s0) s0) as (ii & k & Hp & Hrun); [lia|lia|].
    destruct (picked_lengths ii Hp) as [L1 L2].
    set (k1 := rnd k (Z.of_nat (length (fst ii)))). set (k2 := rnd (S k) (Z.of_nat (length (snd ii)))).
    set (p1 := nth (nth (Z.to_nat k1) (fst ii) 0%nat) X []). set (p2 := nth (nth (Z.to_nat k2) (snd ii) 0%nat) X []).
    set (v := if Rltb (nth 0 (map2 Rminus p2 p1) 0) 0 then map (fun c => c * -1) (map2 Rminus p2 p1) else map2 Rminus p2 p1).
    exists (K + 4)%nat, (mkR (S (S k)) (v :: r_evals s0)). intros fuel Hf. unfold two_point_step. unfold bind at 1. rewrite Hrun by lia.
    unfold bind at 1. rewrite (randint_ok _ _ L1). cbn [r_draws r_evals]. unfold bind at 1. rewrite (randint_ok _ _ L2). cbn [r_draws r_evals].
    fold k1 k2 p1 p2 v. unfold bind, evaluate. destruct (Ho v) as (z & ->). reflexivity. }
  assert (forall l s, exists bound s', forall fuel, (bound <= fuel)%nat -> for_each (A := nat) l (fun _ _ => two_point_step rnd obj X ys fuel) tt s = (Ok tt, s')) as H.
  { induction l as [|x l IH]; intros s0; [exists 0%nat, s0; reflexivity|]. destruct (Hstep s0) as (b1 & s1 & E1). destruct (IH s1) as (b2 & s2 & E2).
    exists (Nat.max b1 b2), s2. intros fuel Hf. cbn [for_each]. unfold bind. rewrite E1 by lia. apply E2. lia. }
  apply H.
Qed.
End TwoPoint2.
