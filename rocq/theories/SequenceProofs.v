(** * SequenceProofs: which points the quasi-random and the two random optimizers evaluate (C73). *)
From Coq Require Import Reals Lra Znumtheory Zpow_facts.
From Verif Require Import Prelude Tree Perp RealOps Clf Reg Api Hyper Sphere SphereProofs Optim OptimProofs OptimLemmas OptimPairs.
Local Open Scope R_scope.

(** ** Loops that evaluate one point per round *)
Lemma for_points {A} (obj : list R -> res R) (f : A -> list R) (body : A -> unit -> M unit) l :
  (forall a s, In a l -> body a tt s = (_ <- evaluate obj (f a) ;; ret tt) s) -> (forall a, In a l -> exists v, obj (f a) = Ok v) ->
  forall s, exists s', for_each l body tt s = (Ok tt, s') /\ rev (r_evals s') = rev (r_evals s) ++ map f l.
Proof.
  induction l as [|a l IH]; intros Hb Ho s; cbn [for_each map].
  - exists s. split; [reflexivity|]. now rewrite app_nil_r.
  - destruct (Ho a (or_introl eq_refl)) as (v & Ev). unfold bind at 1. rewrite Hb by now left. unfold bind, evaluate, ret. rewrite Ev.
    destruct (IH (fun b s0 Hin => Hb b s0 (or_intror Hin)) (fun b Hin => Ho b (or_intror Hin)) (mkR (r_draws s) (f a :: r_evals s))) as (s' & E & Es).
    exists s'. split; [exact E|]. rewrite Es. cbn. now rewrite <- app_assoc.
Qed.

Lemma mod1_spec x : 0 <= mod1 x < 1 /\ exists z : Z, mod1 x + IZR z = x.
Proof. unfold mod1. pose proof (base_Int_part x) as H. split; [lra|]. exists (Int_part x). lra. Qed.

Lemma r2_nth phi n i j : (j < n)%nat -> nth j (r2_point phi n i) 0 = mod1 (1 / 2 + 1 / phi ^ (1 + j) * INR (i + 1)).
Proof.
  intros H. unfold r2_point. set (g := fun j => mod1 (1 / 2 + 1 / phi ^ (1 + j) * INR (i + 1))).
  rewrite (nth_indep _ 0 (g 0%nat)) by (rewrite map_length, seq_length; lia). rewrite map_nth, seq_nth by lia. reflexivity.
Qed.
Lemma quasi_run obj phi n m : (0 < n)%nat -> (forall p, length p = n -> Forall (fun u => 0 <= u <= 1) p -> exists v, obj p = Ok v) ->
  let r := quasi_solve obj phi n m start_state in fst r = Ok tt /\ points r = map (r2_point phi n) (seq 0 m).
Proof.
  intros Hn Ho r. unfold r, quasi_solve, points.
  destruct (for_points obj (r2_point phi n) (fun i _ => match n with 0%nat => raise ValueError | _ => _ <- evaluate obj (r2_point phi n i) ;; ret tt end) (seq 0 m)) with (s := start_state) as (s' & E & Es).
  - intros a s _. destruct n; [lia|reflexivity].
  - intros i _. apply Ho.
    + unfold r2_point. now rewrite map_length, seq_length.
    + apply Forall_forall. intros u Hu. unfold r2_point in Hu. apply in_map_iff in Hu as (j & <- & _). pose proof (mod1_spec (1 / 2 + 1 / phi ^ (1 + j) * INR (i + 1))) as [H _]. lra.
  - rewrite E. split; [reflexivity|exact Es].
Qed.
Lemma map_seq_nth {A} (f : nat -> A) m i d : (i < m)%nat -> nth i (map f (seq 0 m)) d = f i.
Proof. intros H. rewrite (nth_indep _ d (f 0%nat)) by (rewrite map_length, seq_length; lia). rewrite map_nth, seq_nth by lia. reflexivity. Qed.

Lemma quasi_sequence obj phi n m : (0 < n)%nat -> (forall p, length p = n -> Forall (fun u => 0 <= u <= 1) p -> exists v, obj p = Ok v) ->
  let r := quasi_solve obj phi n m start_state in
  fst r = Ok tt /\ length (points r) = m /\ forall i, (i < m)%nat -> length (nth i (points r) []) = n /\
    forall j, (j < n)%nat -> let x := nth j (nth i (points r) []) 0 in
      0 <= x < 1 /\ exists z : Z, x + IZR z = 1 / 2 + INR (i + 1) / phi ^ (j + 1).
Proof.
  intros Hn Ho r. destruct (quasi_run obj phi n m Hn Ho) as [E1 E2]. fold r in E1, E2. rewrite E2. split; [auto|]. split; [now rewrite map_length, seq_length|].
  intros i Hi. rewrite map_seq_nth by auto. split; [unfold r2_point; now rewrite map_length, seq_length|].
  intros j Hj. rewrite r2_nth by auto. destruct (mod1_spec (1 / 2 + 1 / phi ^ (1 + j) * INR (i + 1))) as [H1 [z H2]]. split; [auto|]. exists z. rewrite H2.
  rewrite (Nat.add_comm j 1). unfold Rdiv. ring.
Qed.

(** ** The points of the exact sequence are all different *)
Lemma root_equation_Z (n : nat) (a b : Z) : (0 < n)%nat -> (0 < a)%Z -> (0 < b)%Z -> (a ^ (Z.of_nat n + 1) = (a + b) * b ^ Z.of_nat n)%Z -> False.
Proof.
  intros Hn Ha Hb E. set (g := Z.gcd a b). assert (0 < g)%Z as Hg by (pose proof (Z.gcd_nonneg a b); fold g in H; assert (g <> 0)%Z by (unfold g; rewrite Z.gcd_eq_0; lia); lia).
  destruct (Z.gcd_divide_l a b) as [a' Ea]. destruct (Z.gcd_divide_r a b) as [b' Eb]. fold g in Ea, Eb.
  assert (0 < a')%Z by nia. assert (0 < b')%Z by nia.
  assert (rel_prime b' a') as Hr.
  { apply Zgcd_1_rel_prime. rewrite Z.gcd_comm. pose proof (Z.gcd_div_gcd a b g ltac:(lia) eq_refl) as Hq.
    assert (a / g = a')%Z as E1 by (rewrite Ea; apply Z.div_mul; lia). assert (b / g = b')%Z as E2 by (rewrite Eb; apply Z.div_mul; lia).
    now rewrite E1, E2 in Hq. }
  assert (a' ^ (Z.of_nat n + 1) = (a' + b') * b' ^ Z.of_nat n)%Z as E'.
  { rewrite Ea, Eb in E. rewrite !Z.pow_mul_l in E. apply (Z.mul_cancel_r _ _ (g ^ (Z.of_nat n + 1))); [apply Z.pow_nonzero; lia|].
    rewrite E. rewrite (Z.pow_add_r g) by lia. rewrite Z.pow_1_r. ring. }
  assert (b' = 1)%Z as ->.
  { assert (rel_prime b' (a' ^ (Z.of_nat n + 1))) as Hp by (apply rel_prime_Zpower_r; [lia|exact Hr]).
    assert ((b' | a' ^ (Z.of_nat n + 1))%Z) as Hd.
    { rewrite E'. apply Z.divide_mul_r. replace (Z.of_nat n) with (Z.of_nat n - 1 + 1)%Z by lia. rewrite Z.pow_add_r, Z.pow_1_r by lia. apply Z.divide_factor_r. }
    destruct Hp as [_ _ Hp]. specialize (Hp b' (Z.divide_refl _) Hd). apply Z.divide_1_r in Hp. lia. }
  rewrite Z.pow_1_l in E' by lia. rewrite Z.pow_add_r, Z.pow_1_r in E' by lia.
  assert ((a' | 1)%Z) as Hd.
  { exists (a' ^ Z.of_nat n - 1)%Z. lia. }
  apply Z.divide_1_r in Hd. destruct Hd as [->|]; [|lia]. rewrite Z.pow_1_l in E' by lia. lia.
Qed.

Lemma root_irrational (n : nat) (a b : Z) phi : (0 < n)%nat -> (0 < a)%Z -> (0 < b)%Z -> phi ^ (n + 1) = phi + 1 -> phi * IZR b = IZR a -> False.
Proof.
  intros Hn Ha Hb E Eab. apply (root_equation_Z n a b Hn Ha Hb). apply eq_IZR.
  rewrite mult_IZR, plus_IZR. replace (Z.of_nat n + 1)%Z with (Z.of_nat (n + 1)) by lia. rewrite <- !pow_IZR, <- Eab.
  rewrite Rpow_mult_distr, E, pow_add. cbn. ring.
Qed.

Lemma r2_apart phi n i k z1 z2 x y : (0 < n)%nat -> 0 < phi -> phi ^ (n + 1) = phi + 1 -> (i < k)%nat ->
  x + IZR z1 = 1 / 2 + INR (i + 1) / phi ^ 1 -> y + IZR z2 = 1 / 2 + INR (k + 1) / phi ^ 1 -> x <> y.
Proof.
  intros Hn Hphi E Hik H1 H2 Exy. rewrite pow_1 in H1, H2.
  assert ((IZR z2 - IZR z1) * phi = INR (k + 1) - INR (i + 1)) as Hd.
  { apply (Rmult_eq_reg_r (/ phi)); [|apply Rinv_neq_0_compat; lra]. rewrite Rmult_assoc, Rinv_r by lra. unfold Rdiv in *. lra. }
  rewrite <- minus_IZR, !INR_IZR_INZ, <- minus_IZR in Hd.
  apply (root_irrational n (Z.of_nat (k + 1) - Z.of_nat (i + 1)) (z2 - z1) phi Hn); [lia| |exact E|rewrite Rmult_comm; exact Hd].
  apply lt_IZR. assert (0 < IZR (Z.of_nat (k + 1) - Z.of_nat (i + 1))) by (apply IZR_lt; lia). rewrite <- Hd in H. nra.
Qed.

Lemma quasi_distinct obj phi n m : (0 < n)%nat -> (forall p, length p = n -> Forall (fun u => 0 <= u <= 1) p -> exists v, obj p = Ok v) ->
  0 < phi -> phi ^ (n + 1) = phi + 1 -> let r := quasi_solve obj phi n m start_state in
  forall i k, (i < k < m)%nat -> nth 0 (nth i (points r) []) 0 <> nth 0 (nth k (points r) []) 0.
Proof.
  intros Hn Ho Hphi E r i k Hik. destruct (quasi_sequence obj phi n m Hn Ho) as (_ & _ & H). fold r in H.
  destruct (H i ltac:(lia)) as [_ Hi]. destruct (H k ltac:(lia)) as [_ Hk]. destruct (Hi 0%nat Hn) as [_ [z1 H1]]. destruct (Hk 0%nat Hn) as [_ [z2 H2]].
  cbn [Nat.add] in H1, H2. exact (r2_apart phi n i k z1 z2 _ _ Hn Hphi E (proj1 Hik) H1 H2).
Qed.

(** ** Random normals *)
Lemma random_sequence obj nrm n n_mc : (forall p, length p = n -> exists v, obj p = Ok v) ->
  let r := random_solve obj nrm n n_mc start_state in
  fst r = Ok tt /\ length (points r) = n_mc /\ concat (points r) = map nrm (seq 0 (n * n_mc)) /\ Forall (fun p => length p = n) (points r).
Proof.
  intros Ho r. unfold r, random_solve, points.
  destruct (for_points obj (fun i => map (fun k => nrm (i * n + k)%nat) (seq 0 n)) (fun i _ => _ <- evaluate obj (map (fun k => nrm (i * n + k)%nat) (seq 0 n)) ;; ret tt) (seq 0 n_mc))
    with (s := start_state) as (s' & E & Es).
  - reflexivity.
  - intros i _. apply Ho. now rewrite map_length, seq_length.
  - rewrite E. cbn [fst snd]. rewrite Es. cbn [rev r_evals start_state app]. split; [reflexivity|]. split; [now rewrite map_length, seq_length|]. split.
    + clear. induction n_mc as [|m IH]; [now rewrite Nat.mul_0_r|]. rewrite seq_S, map_app, concat_app, IH. cbn [map concat]. rewrite app_nil_r.
      replace (n * S m)%nat with (n * m + n)%nat by lia. rewrite seq_app, map_app. f_equal. cbn [Nat.add].
      replace (seq (n * m) n) with (map (fun k => n * m + k)%nat (seq 0 n)).
      * rewrite map_map. apply map_ext. intros k. f_equal. lia.
      * clear. generalize (n * m)%nat. intros a. transitivity (seq (a + 0) n); [|now rewrite Nat.add_0_r]. generalize 0%nat.
        induction n as [|n IH]; intros b; cbn [seq map]; [auto|]. f_equal. rewrite IH. f_equal. lia.
    + apply Forall_forall. intros p Hp. apply in_map_iff in Hp as (i & <- & _). now rewrite map_length, seq_length.
Qed.

(** ** Two random points *)
Lemma randint_evals rnd k s : r_evals (snd (randint rnd k s)) = r_evals s.
Proof. unfold randint. destruct (k <=? 0)%Z; reflexivity. Qed.
Lemma draw_other_evals rnd ys fuel c : forall s, r_evals (snd (draw_other rnd ys fuel c s)) = r_evals s.
Proof.
  induction fuel as [|fuel IH]; intros s; cbn [draw_other]; [reflexivity|]. unfold bind. pose proof (randint_evals rnd (n_classes ys) s) as H.
  destruct (randint rnd (n_classes ys) s) as [[k|e] s1]; cbn [snd] in *; [|auto]. destruct (k =? c)%Z; [now rewrite IH|exact H].
Qed.
Lemma draw_classes_evals rnd ys inner fuel : forall s, r_evals (snd (draw_classes rnd ys fuel inner s)) = r_evals s.
Proof.
  induction fuel as [|fuel IH]; intros s; cbn [draw_classes]; [reflexivity|]. unfold bind at 1. pose proof (randint_evals rnd (n_classes ys) s) as H.
  destruct (randint rnd (n_classes ys) s) as [[k|e] s1]; cbn [snd] in *; [|auto]. unfold bind at 1. pose proof (draw_other_evals rnd ys inner k s1) as H1.
  destruct (draw_other rnd ys inner k s1) as [[k2|e] s2]; cbn [snd] in *; [|congruence].
  destruct ((_ =? _)%nat || _)%bool; [rewrite IH; congruence|cbn; congruence].
Qed.
Lemma step_evals rnd obj X ys fuel s : match two_point_step rnd obj X ys fuel s with
  | (Ok tt, s') => exists p, r_evals s' = p :: r_evals s | (Err _, s') => True end.
Proof.
  unfold two_point_step. unfold bind at 1. pose proof (draw_classes_evals rnd ys fuel fuel s) as H. destruct (draw_classes rnd ys fuel fuel s) as [[ii|e] s1]; [|auto].
  cbn [snd] in H. unfold bind at 1. match goal with |- context [randint rnd ?k s1] => pose proof (randint_evals rnd k s1) as H1; destruct (randint rnd k s1) as [[k1|e] s2]; [|auto] end.
  cbn [snd] in H1. unfold bind at 1. match goal with |- context [randint rnd ?k s2] => pose proof (randint_evals rnd k s2) as H2; destruct (randint rnd k s2) as [[k2|e] s3]; [|auto] end.
  cbn [snd] in H2. cbv zeta. unfold bind, evaluate. match goal with |- context [obj ?p] => set (q := p); destruct (obj q) as [v|e]; [|exact I] end.
  cbn. exists q. now rewrite H2, H1, H.
Qed.
Lemma two_point_count rnd obj X ys n_mc fuel : let r := two_point_solve rnd obj X ys n_mc fuel start_state in
  fst r = Ok tt -> length (points r) = if (length (nodup Req_EM_T ys) <=? 1)%nat then 0%nat else n_mc.
Proof.
  unfold two_point_solve, points. destruct (existsb _ ys); [discriminate|]. destruct (_ <=? 1)%nat; [reflexivity|]. rewrite rev_length.
  assert (forall l s, fst (for_each l (fun (_ : nat) (_ : unit) => two_point_step rnd obj X ys fuel) tt s) = Ok tt ->
    length (r_evals (snd (for_each l (fun (_ : nat) (_ : unit) => two_point_step rnd obj X ys fuel) tt s))) = (length (r_evals s) + length l)%nat) as G.
  { induction l as [|a l IH]; intros s; cbn [for_each]; [cbn; lia|]. unfold bind. pose proof (step_evals rnd obj X ys fuel s) as H.
    destruct (two_point_step rnd obj X ys fuel s) as [[[]|e] s1]; [|discriminate]. destruct H as [p Hp]. intros Hr. rewrite (IH s1 Hr), Hp. cbn. lia. }
  intros H. rewrite (G _ _ H), seq_length. reflexivity.
Qed.
