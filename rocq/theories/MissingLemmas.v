(** * MissingLemmas: statements in the form of the property. *)
From Coq Require Import Permutation Sorted Lra.
From Flocq Require Import Core BinarySingleNaN.
From Verif Require Import Prelude Lists Tree Perp RealOps Clf Reg Api Spec PredictProofs FitProofs OptProofs OptFit ClfSpec ApiSpec ApiProofs
  Routing Sim FloatFeat FloatProofs NumApi NumLemmas NumWitness MissingSpec MissingProofs MissingWitness.
Local Open Scope nat_scope.

Lemma split_values {Y P S} p srt (L : lik Y P S) same do_prune lvl pa (d : tset float64 Y) t :
  permutes srt -> tset_ok d -> no_neg_inf (ts_X d) (ts_n d) (ts_dim d) -> perp_fit (feat_f p srt) L same do_prune lvl pa d = Ok t ->
  forall e, In e (map (fun s => fst (fst s)) (splits t)) -> is_nan (sd_val e) = false.
Proof.
  intros Hp Hd Hi E e He.
  destruct (fit_sim (feat_f p srt) (feat_f p srt) L same do_prune lvl pa d (ts_X d) t) as (t' & _ & Hs); auto.
  destruct (sim_gaps _ _ _ _ _ _ t t' Hs e He) as (r & s & Hr & Hs' & Hdim & Hg & ->). cbn [f_gap f_mid feat_f] in *.
  apply (mid_gap_not_nan p); auto.
Qed.
Theorem lost_or_found {P S Y O} p srt (L : lik Y P S) same do_prune lvl pa (d : tset float64 Y) t (val : ninfo P -> O) o
    (Xq : nat -> nat -> float64) m q :
  permutes srt -> tset_ok d -> no_neg_inf (ts_X d) (ts_n d) (ts_dim d) -> perp_fit (feat_f p srt) L same do_prune lvl pa d = Ok t -> q < m ->
  exists l, reaches (fun e => f_left Xq e q = true) (fun e => not_left Xq e q = true) t l /\
    nth_error (predict_rows (f_left Xq) (f_right Xq) val t m o) q = Some (if meets_nan Xq t q then o else val l).
Proof.
  intros Hp Hd Hi E Hq. pose proof (split_values p srt L same do_prune lvl pa d t Hp Hd Hi E) as Hv.
  destruct (lookup_reaches (f_left Xq) (not_left Xq) val t q) as (l & Hr & El); [intros; reflexivity|].
  exists l. split; [exact Hr|]. rewrite predict_rows_spec, nth_error_map, nth_error_seq.
  apply Nat.ltb_lt in Hq. rewrite Hq. cbn [option_map]. rewrite lookup_nan by auto. cbn [Nat.add].
  destruct (meets_nan Xq t q); [reflexivity|]. rewrite El. reflexivity.
Qed.
(** A row of minus infinity is not left of a split value computed from it. *)
Lemma neg_inf_not_left (b : float64) : Bltb (B754_infinity true) (mid_f (B754_infinity true) b) = false.
Proof.
  destruct b as [s|[]| |s m e H]; reflexivity.
Qed.
Lemma three_ok (x0 x1 x2 : float64) : tset_ok (three_rows x0 x1 x2).
Proof. unfold tset_ok. simpl. repeat split; lia. Qed.
Lemma three_no_inf : no_neg_inf (ts_X (three_rows f1 f2 fnan)) 3 1.
Proof.
  assert (N : forall x : float64, match B2SF x with SpecFloat.S754_infinity true => false | _ => true end = true -> x <> B754_infinity true).
  { intros x Hx ->. discriminate. }
  intros i d Hi Hd. destruct i as [|[|[|i]]]; [apply N; vm_compute; reflexivity..|lia].
Qed.
Lemma three_separable : separable_finite f0 (ts_X (three_rows f1 f2 fnan)) 3 1.
Proof.
  assert (N00 : Bltb f1 f1 = false) by (vm_compute; reflexivity).
  assert (N10 : Bltb f2 f1 = false) by (vm_compute; reflexivity).
  assert (N11 : Bltb f2 f2 = false) by (vm_compute; reflexivity).
  intros i j d Hi Hj Hd. cbn [ts_X three_rows].
  destruct i as [|[|[|i]]], j as [|[|[|j]]]; try lia; cbn [Nat.eqb]; intros Fi Fj Hlt _; try discriminate; try congruence.
  split; [vm_compute; reflexivity|]. exists f1s. split; vm_compute; reflexivity.
Qed.
