(** * OptimWitness: concrete runs of the optimizers. *)
From Coq Require Import QArith Qreals Reals Lra.
From Verif Require Import Prelude Tree Perp RealOps Clf Reg Api Hyper Spec OptProofs HyperSpec Sphere SphereProofs Optim OptimProofs OptimLemmas OptimPairs OptimFit OptimSpec OptimFitProofs.
From Verif Require Import Witness HyperExec HyperWitness.
Local Open Scope nat_scope.

(** ** A fair stream *)
Definition fair_stream (k : nat) (n : Z) : Z :=
  let q := ((Z.of_nat k / 4) mod (n * n))%Z in if Z.even (Z.of_nat k) then (q / n)%Z else (q mod n)%Z.
Lemma fair_stream_range k n : (0 < n)%Z -> (0 <= fair_stream k n < n)%Z.
Proof.
  intros Hn. unfold fair_stream. pose proof (Z.mod_pos_bound (Z.of_nat k / 4) (n * n) ltac:(nia)) as H.
  destruct (Z.even _); [|now apply Z.mod_pos_bound]. split; [apply Z.div_pos; lia|apply Z.div_lt_upper_bound; nia].
Qed.
Lemma fair_stream_fair : fair fair_stream.
Proof.
  intros n a b k Ha Hb Hab. set (q := (a * n + b)%Z). set (z := (q + n * n * (1 + Z.of_nat k))%Z).
  assert (0 <= q < n * n)%Z as Hq by (unfold q; nia). assert (0 <= z)%Z as Hz by (unfold z; nia).
  exists (Z.to_nat (4 * z)).
  assert (forall j, (0 <= j < 4)%Z -> (((4 * z + j) / 4) mod (n * n) = q)%Z) as Hm.
  { intros j Hj. replace ((4 * z + j) / 4)%Z with z by (apply Z.div_unique with j; lia). unfold z.
    rewrite Z.mul_comm with (n := (n * n)%Z), Z.mod_add by nia. now apply Z.mod_small. }
  assert (q / n = a)%Z as E1 by (symmetry; apply Z.div_unique with b; [lia|unfold q; lia]).
  assert (q mod n = b)%Z as E2 by (symmetry; apply Z.mod_unique with a; [lia|unfold q; lia]).
  assert (forall j, (j < 4) -> fair_stream (Z.to_nat (4 * z) + j) n = if Z.even (Z.of_nat j) then a else b) as H.
  { intros j Hj. unfold fair_stream. rewrite Nat2Z.inj_add, Z2Nat.id by lia. rewrite Hm by lia.
    rewrite Z.even_add, Z.even_mul. cbn [Z.even orb eqb]. destruct (Z.even (Z.of_nat j)); [exact E1|exact E2]. }
  split; [unfold z in *; nia|]. rewrite <- (Nat.add_0_r (Z.to_nat (4 * z))) at 1. rewrite !H by lia. auto.
Qed.

(** ** Random hyperplanes with given normals *)
Section Const.
Context {P : Type}.
Variables (L : lik R P R) (post : R -> P -> list R -> P).
Variables (prec : R) (srt : (nat -> R) -> nat -> list nat) (X : nat -> list R) (y : nat -> R) (n_dim : nat).
Lemma opt_run_map {C} (pre : C -> list R) lvl prior rows ns cs :
  opt_run (geo_R (fun v => v) prec srt) L X y n_dim lvl prior rows ns (map pre cs) = opt_run (geo_R pre prec srt) L X y n_dim lvl prior rows ns cs.
Proof.
  unfold opt_run. change (opt_init (geo_R (fun v => v) prec srt) ns) with (opt_init (geo_R pre prec srt) ns).
  generalize (opt_init (geo_R pre prec srt) ns) as st. induction cs as [|c cs IH]; intros st; [reflexivity|]. cbn [map fold_left]. exact (IH _).
Qed.
Lemma hfit_with_const {C} (pre : C -> list R) solve cs : (forall lvl prior rows ns, solve lvl prior rows ns = Ok (map pre cs)) ->
  forall fuel lvl path pa rows, hfit_with (geo_R (fun v => v) prec srt) L post X y n_dim solve fuel lvl pa rows =
    hfit (geo_R pre prec srt) L post X y n_dim (fun _ => cs) fuel lvl path pa rows.
Proof.
  intros Hs. induction fuel as [|fuel IH]; intros lvl path pa rows; [reflexivity|]. cbn [hfit_with hfit]. rewrite Hs. cbn [rbind]. rewrite opt_run_map.
  destruct (o_plane _) as [pl|]; [|reflexivity]. cbn [geo_R g_back g_front].
  destruct (_ && _); [|reflexivity]. rewrite <- !IH. reflexivity.
Qed.
End Const.

(** The draws [3/5, 4/5, -4/5, 3/5, 8/17, 15/17]. *)
Definition hx1_nrm (k : nat) : R := nth k (map Q2R (concat hx1_cs)) 0%R.
Lemma hx1_random delta prn : let o := RandomHyperplane hx1_nrm 3 in
  proper o /\ usable o (hsetR hx1) /\
  exists t, (forall fuel, hclf_fit_opt sort_R o fuel (hx1_h delta prn) (hsetR hx1) = Ok t) /\ height t = 2 /\ length (leaves t) = 3.
Proof.
  cbv zeta. split; [exact I|]. split; [split; [discriminate|intros ? ? E; discriminate]|].
  destruct (hx1_fit delta prn) as (_ & _ & _ & t & Ht & H1 & H2 & _). exists t. split; [|auto]. intros fuel. rewrite <- Ht.
  unfold hclf_fit_opt, hyper_fit_opt, hclf_fit, hyper_fit.
  assert (forall A B : res hctree, A = B -> (let! t0 := A in if h_prune (hx1_h delta prn) then prune clf_same t0 else Ok t0) =
     (let! t0 := B in if h_prune (hx1_h delta prn) then prune clf_same t0 else Ok t0)) as Hcong by (intros A B ->; reflexivity).
  apply Hcong. apply (hfit_with_const _ _ (h_prec (hx1_h delta prn)) sort_R _ _ _ vecR _ hx1_cs). intros lvl prior rows ns. reflexivity.
Qed.

(** ** Targets *)
Lemma two_point_case : (forall k n, (0 < n)%Z -> (0 <= fair_stream k n < n)%Z) /\ fair fair_stream /\
  (let ys := [0; 1; 1]%R in forall k, exists K a b, k <= K /\ a <> b /\ (0 <= a)%Z /\ In (IZR a) ys /\ In (IZR b) ys /\
     fair_stream K (n_classes ys) = a /\ fair_stream (K + 1) (n_classes ys) = b /\
     fair_stream (K + 2) (n_classes ys) = a /\ fair_stream (K + 3) (n_classes ys) = b).
Proof.
  split; [exact fair_stream_range|]. split; [exact fair_stream_fair|]. cbv zeta. set (ys := [0; 1; 1]%R). intros k.
  destruct (n_classes_spec ys) as (m & M1 & M2 & M3); [discriminate|repeat constructor; [now exists 0%Z|now exists 1%Z|now exists 1%Z]|].
  assert (m = 1%Z) as Em.
  { specialize (M2 1%Z (or_intror (or_introl eq_refl))). cbn in M1. destruct M1 as [E|[E|[E|[]]]]; apply eq_IZR in E; lia. }
  destruct (fair_stream_fair (n_classes ys) 0%Z 1%Z k) as (K & HK & HD); try lia.
  exists K, 0%Z, 1%Z. split; [auto|]. split; [lia|]. split; [lia|]. split; [now left|]. split; [right; now left|]. exact HD.
Qed.
Lemma never_case : let ys := [-1; 0; -1]%R in Forall (fun a => exists z, a = IZR z) ys /\ (exists a b, In a ys /\ In b ys /\ a <> b) /\
  (exists a, In a ys /\ (0 <= a)%R) /\ (forall a b, In a ys -> In b ys -> (0 <= a)%R -> (0 <= b)%R -> a = b).
Proof.
  cbv zeta. split; [repeat constructor; [now exists (-1)%Z|now exists 0%Z|now exists (-1)%Z]|].
  split; [exists (-1)%R, 0%R; cbn; split; [now left|split; [right; now left|lra]]|]. split; [exists 0%R; cbn; split; [right; now left|lra]|].
  intros a b Ha Hb H1 H2. cbn in Ha, Hb. destruct Ha as [<-|[<-|[<-|[]]]], Hb as [<-|[<-|[<-|[]]]]; lra.
Qed.
Lemma integer_case : let ys := [0; 1; 1]%R in Forall (fun a => exists z, a = IZR z) ys /\ exists a b, In a ys /\ In b ys /\ a <> b.
Proof.
  cbv zeta. split; [repeat constructor; [now exists 0%Z|now exists 1%Z|now exists 1%Z]|].
  exists 0%R, 1%R. cbn. split; [now left|split; [right; now left|lra]].
Qed.
Lemma all_usable : hset_ok (hsetR hx1) /\
  Forall (fun o => proper o /\ usable o (hsetR hx1))
    [SimulatedAnnealing (fun _ => 1 / 2)%R 10 3 (9 / 10)%R; GradientDescent (fun _ => 1 / 2)%R 10 3; QuasiRandom 2 10;
     RandomHyperplane (fun _ => 1%R) 10; RandomTwoPoint fair_stream 10].
Proof.
  destruct (proj1 (hx1_fit 0 true)) as (_ & _ & _ & Hd & _ & _ & _ & Hy). split; [exact Hd|].
  assert (forall o, (forall rnd n, o <> RandomTwoPoint rnd n) -> usable o (hsetR hx1)) as Hu.
  { intros o Hne. split; [intros _; cbn; lia|]. intros rnd n E. now destruct (Hne rnd n). }
  repeat apply Forall_cons; [| | | | |apply Forall_nil]; (split; [cbn [proper]|]); try (apply Hu; discriminate); auto.
  - split; [intros _; lra|lia].
  - split; [intros _; lra|lia].
  - exact fair_stream_range.
  - split; [discriminate|]. intros rnd n E. inversion E; subst. split; [exact fair_stream_fair|]. intros i Hi. destruct (Hy i Hi) as (c & _ & ->). now exists c.
Qed.
Lemma descent_case : sorts Rleb sort_R /\ (forall k : nat, 0 <= (fun _ => 1 / 2) k < 1)%R /\
  points (gd_solve (fun _ => 1 / 2)%R (fun _ => Ok 0%R) 1 1 1 1 start_state) <> [].
Proof. split; [exact sort_R_sorts|]. split; [intros _; cbn; lra|]. cbn. discriminate. Qed.
