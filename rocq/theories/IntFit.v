(** * IntFit: fits on integer features and integer targets. *)
From Coq Require Import Permutation Sorted.
From Verif Require Import Prelude Lists Tree Perp Gamma RealOps Reg Spec PruneProofs FitProofs OptSpec OptProofs OptFit
  ClfSpec ClfProofs RegProofs Api ApiSpec ApiProofs Routing LikExt IntFeat IntProofs.
Local Open Scope nat_scope.

(** Targets for which no wrap-around happens: all of size at most [B] (and non-negative for unsigned
    types), [B^2] representable in the type of the targets and the squares of sums in 64 bits. *)
Definition targets_small (t : ity) (B : Z) (d : tset R Z) : Prop :=
  (0 <= B)%Z /\ (B * B < i_hi t)%Z /\
  ((Z.of_nat (ts_n d) * B) * (Z.of_nat (ts_n d) * B) < i_hi (acc t))%Z /\
  (Z.of_nat (ts_n d) * Z.of_nat (ts_n d) * B < i_hi (acc t))%Z /\
  forall i, i < ts_n d -> (Z.abs (ts_y d i) <= B)%Z /\ (it_signed t = false -> (0 <= ts_y d i)%Z).

Lemma ireg_agree t pp delta B (d : tset R Z) : (0 < it_bits t)%Z -> targets_small t B d ->
  lik_agree (ireg_lik t pp delta) (reg_lik pp delta) (ts_y d) (fun i => IZR (ts_y d i)) (ts_n d).
Proof.
  intros Hb (HB & HBB & HNB & HNN & Hy).
  split; auto. intros l Hl Hlen.
  assert (Hok : list_ok t B (Z.of_nat (ts_n d)) (map (ts_y d) l)).
  { split; [|rewrite map_length; lia]. apply Forall_forall. intros v Hv. apply in_map_iff in Hv as (i & <- & Hi).
    apply Hy; auto. }
  rewrite <- (map_map (ts_y d) IZR).
  set (N := Z.of_nat (ts_n d)) in *. assert (HN : (0 <= N)%Z) by (unfold N; lia).
  simpl. repeat split; intros.
  - apply (ireg_no_split_eq t Hb B N HB HBB HNB HNN); auto.
  - apply (ireg_split_eq t Hb B N HB HBB HNB HNN); auto.
  - apply (ireg_posterior_eq t Hb B N HB HBB HNB HNN None); auto.
  - destruct (Reqb delta 0); auto. apply (ireg_posterior_eq t Hb B N HB HBB HNB HNN (Some delta)); auto.
  - apply many_Z_eq.
Qed.

(** [PerpendicularRegressionTree(...).fit(X, y)] for an integer target array of type [t]. *)
Definition ireg_fit (t : ity) (srt : (nat -> R) -> nat -> list nat) (h : hyper ng) (d : tset R Z) : res rtree :=
  perp_fit (feat_R (h_prec h) srt) (ireg_lik t (h_pp h) (h_delta h)) reg_same (h_prune h) 0 (h_prior h) d.

Theorem ireg_fit_eq t srt h B (d : tset R Z) : (0 < it_bits t)%Z -> permutes srt -> tset_ok d -> targets_small t B d ->
  ireg_fit t srt h d = reg_fit srt h (map_target IZR d).
Proof.
  intros Hb Hp Hd Hs. unfold ireg_fit, reg_fit. apply fit_lik; auto. eapply ireg_agree; eauto.
Qed.
