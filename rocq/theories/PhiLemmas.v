(** * PhiLemmas: the iteration from its start, and an example. *)
From Coq Require Import Reals Lra.
From Flocq Require Import Core.
From Verif Require Import Prelude RealOps Phi PhiProofs PhiWitness.
Local Open Scope R_scope.

Lemma exact_loop n fuel : (0 < n)%nat -> r2_phi (fun x => 1 + x) pow_R fuel n = Err OutOfFuel.
Proof.
  intros Hn. destruct n as [|n]; [inversion Hn|]. cbn [r2_phi]. apply exact_never; [lra|].
  replace (1 + 2) with 3 by lra. apply Rlt_le_trans with (2 ^ 2); [simpl; lra|]. apply Rle_pow; [lra|lia].
Qed.

(** x^(n+1) = 1+x has a solution. *)
Lemma real_root n : (0 < n)%nat -> exists r, 0 < r /\ r ^ (n + 1) = 1 + r.
Proof.
  intros Hn. set (f := fun x => x ^ (n + 1) - (1 + x)).
  assert (Hc : continuity f) by (unfold f; apply derivable_continuous; reg).
  assert (H1 : f 1 < 0) by (unfold f; rewrite pow1; lra).
  assert (H2 : 0 < f 2).
  { unfold f. assert (2 ^ 2 <= 2 ^ (n + 1)) by (apply Rle_pow; [lra|lia]). simpl in H. lra. }
  destruct (IVT f 1 2 Hc ltac:(lra) H1 H2) as (r & Hr & E). exists r. unfold f in E. split; lra.
Qed.

Lemma monotone_loop n pw : (0 < n)%nat ->
  (forall x, 2 <= x <= 3 -> is_f64 x -> is_f64 (pw n x) /\ 1 <= pw n x <= 2) ->
  (forall x y, 2 <= x -> x <= y -> y <= 3 -> is_f64 x -> is_f64 y -> pw n x <= pw n y) ->
  exists fuel phi, (forall k, r2_phi plus1_f pw (fuel + k) n = Ok phi) /\ is_f64 phi /\ 1 <= phi <= 2 /\ pw n (plus1_f phi) = phi.
Proof.
  intros Hn Hf Hm. destruct (phi_ends (pw n)) as (fuel & phi & E & H); auto; [intros; apply Hf; auto|intros; apply Hf; auto|].
  exists fuel, phi. split; [|exact H]. intros k. destruct n as [|n]; [inversion Hn|]. apply phi_fuel. exact E.
Qed.

Lemma float_loop n : (0 < n)%nat -> exists fuel phi, (forall k, r2_phi plus1_f pow_f (fuel + k) n = Ok phi) /\ 1 <= phi <= 2 /\
  (forall r, 0 < r -> r ^ (n + 1) = 1 + r -> Rabs (phi - r) <= / 2 ^ 50).
Proof.
  intros Hn. destruct (pow_f_ok n Hn) as (P1 & P2 & P3).
  destruct (monotone_loop n pow_f Hn) as (fuel & phi & E & _ & Hp & Hfix); auto.
  exists fuel, phi. split; auto. split; auto. intros r Hr Er. pose proof (fix_close n phi r Hn Hp Hfix Hr Er) as H.
  eapply Rle_trans; [exact H|]. change (-50)%Z with (- (50))%Z. rewrite bpow_opp. rewrite (bpow_powerRZ radix2). apply Rle_refl.
Qed.
