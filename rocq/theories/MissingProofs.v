(** * MissingProofs: NaN entries are trained to the right of every split and routed to neither side. *)
From Coq Require Import Permutation Sorted Lra.
From Flocq Require Import Core BinarySingleNaN.
From Verif Require Import Prelude Lists Tree Perp RealOps Clf Reg Api Spec PredictProofs FitProofs OptProofs OptFit ClfSpec ApiSpec ApiProofs
  Routing Sim FloatFeat FloatProofs NumApi NumLemmas MissingSpec.
Local Open Scope nat_scope.

(** The same fit, with the other side of a split as "not left". *)
Definition feat_nl (p : float64) (srt : (nat -> float64) -> nat -> list nat) : feat float64 float64 := {|
  f_lt := fun x v => Bltb x v;
  f_ge := fun x v => negb (Bltb x v);
  f_mid := mid_f;
  f_gap := gap_f p;
  f_argsort := srt
|}.

Lemma fit_nl {Y P S} p srt (L : lik Y P S) same do_prune lvl pa d :
  perp_fit (feat_f p srt) L same do_prune lvl pa d = perp_fit (feat_nl p srt) L same do_prune lvl pa d.
Proof. reflexivity. Qed.

(** A gap exists only between two numbers, or a number and infinity. *)
Lemma gap_nan_l (p b : float64) : gap_f p B754_nan b = false.
Proof. unfold gap_f. destruct b as [[]|[]| |[]], p as [[]|[]| |[]]; reflexivity. Qed.
Lemma gap_nan_r (p a : float64) : gap_f p a B754_nan = false.
Proof. unfold gap_f. destruct a as [[]|[]| |[]], p as [[]|[]| |[]]; reflexivity. Qed.
Lemma gap_inf (p : float64) : gap_f p (B754_infinity false) (B754_infinity false) = false.
Proof. destruct p as [[]|[]| |[]]; reflexivity. Qed.

Lemma mid_inf (a : float64) : is_finite a = true -> mid_f a (B754_infinity false) = B754_infinity false.
Proof.
  intros Ha. unfold mid_f. replace (Bplus mode_NE a (B754_infinity false)) with (B754_infinity false : float64) by (destruct a; auto; discriminate).
  vm_compute. reflexivity.
Qed.
Lemma fleb_inf_r (x : float64) : fleb (B754_infinity false) x = true -> x = B754_infinity false \/ is_nan x = true.
Proof. destruct x as [[]|[]| |[]]; simpl; intros H; auto; discriminate. Qed.

Lemma gap_cases (p a b : float64) : a <> B754_infinity true -> fleb a b = true -> gap_f p a b = true ->
  is_finite a = true /\ (is_finite b = true \/ b = B754_infinity false).
Proof.
  intros Ha Hle Hg.
  assert (Fa : is_finite a = true).
  { destruct a as [s|[]| |s m e H]; auto; [|rewrite gap_nan_l in Hg; discriminate].
    destruct (fleb_inf_r b Hle) as [->|Hb]; [rewrite gap_inf in Hg; discriminate|]. destruct b; try discriminate. rewrite gap_nan_r in Hg. discriminate. }
  split; auto. destruct b as [s|[]| |s m e H]; auto; [|rewrite gap_nan_r in Hg; discriminate].
  destruct a as [[]|[]| |[]]; discriminate.
Qed.

Lemma nl_threshold p srt X n n_dim : Bltb p (B754_zero false) = false -> no_neg_inf X n n_dim ->
  separable_finite p X n n_dim -> threshold_ok (feat_nl p srt) fleb X n n_dim.
Proof.
  intros Hp Hinf Hsep d i j r Hd Hi Hj Hr Hle Hg. simpl in *.
  destruct (gap_cases p _ _ (Hinf i d Hi Hd) Hle Hg) as [Fa [Fb|Eb]].
  - apply fleb_finite in Hle; auto. pose proof (gap_neq 53 1024 _ _ p _ _ Fa Fb Hp Hg) as Hne.
    assert (Hlt : (B2R (X i d) < B2R (X j d))%R) by lra.
    destruct (Hsep i j d Hi Hj Hd Fa Fb) as (Hs & c & Hc1 & Hc2); auto; [apply Bltb_finite; auto|].
    pose proof (between_finite 53 1024 _ _ c Fa Fb Hc1 Hc2) as Fc. apply Bltb_finite in Hc1, Hc2; auto.
    destruct (mid_correct 53 1024 _ _ ltac:(lia) (X i d) (X j d) Fa Fb Hs Hle) as (Fm & _ & Hm).
    pose proof (mid_strict 53 1024 _ _ ltac:(lia) (X i d) (X j d) c Fa Fb Hs (conj Hc1 Hc2)) as Hm'.
    set (v := mid_f (X i d) (X j d)) in *. split; intros H.
    + assert (Fr : is_finite (X r d) = true).
      { pose proof (Hinf r d Hr Hd) as Hri. destruct (X r d) as [s|[]| |s m e H']; auto; try (exfalso; apply Hri; reflexivity); destruct (X i d) as [[]|[]| |[]]; discriminate. }
      apply fleb_finite in H; auto. assert (E : Bltb (X r d) v = true) by (apply Bltb_finite; auto; lra). rewrite E. auto.
    + assert (E : Bltb (X r d) v = false); [|rewrite E; auto].
      destruct (X r d) as [s|[]| |s m e H'] eqn:Er; auto.
      * rewrite <- Er in *. assert (Fr : is_finite (X r d) = true) by (rewrite Er; auto). apply fleb_finite in H; auto.
        apply not_true_is_false. intros G. apply Bltb_finite in G; auto. lra.
      * destruct (X j d) as [[]|[]| |[]]; discriminate.
      * destruct v as [[]|[]| |[]]; auto; discriminate.
      * rewrite <- Er in *. assert (Fr : is_finite (X r d) = true) by (rewrite Er; auto). apply fleb_finite in H; auto.
        apply not_true_is_false. intros G. apply Bltb_finite in G; auto. lra.
  - rewrite Eb in *. rewrite mid_inf by auto. split; intros H.
    + assert (Fr : is_finite (X r d) = true).
      { pose proof (Hinf r d Hr Hd) as Hri. destruct (X r d) as [s|[]| |s m e H']; auto; try (exfalso; apply Hri; reflexivity); destruct (X i d) as [[]|[]| |[]]; discriminate. }
      destruct (X r d) as [[]|[]| |[]]; try discriminate; auto.
    + destruct (fleb_inf_r _ H) as [->|Hn]; auto. destruct (X r d); try discriminate. auto.
Qed.

Theorem nan_routed {Y P S} p srt (L : lik Y P S) same do_prune lvl pa (d : tset float64 Y) t :
  Bltb p (B754_zero false) = false -> sorts fleb srt -> tset_ok d -> no_neg_inf (ts_X d) (ts_n d) (ts_dim d) ->
  separable_finite p (ts_X d) (ts_n d) (ts_dim d) -> perp_fit (feat_f p srt) L same do_prune lvl pa d = Ok t ->
  nodes_ok (f_left (ts_X d)) (not_left (ts_X d)) (fitted_on L (ts_y d)) (seq 0 (ts_n d)) t.
Proof.
  intros Hp Hs Hd Hi Hsep E. rewrite fit_nl in E.
  exact (fit_routed (feat_nl p srt) L fleb (fleb_refl 53 1024) same do_prune lvl pa d t Hs Hd (nl_threshold p srt _ _ _ Hp Hi Hsep) E).
Qed.

(** ** Answers *)
Lemma sim_gaps {A V A' V' P S NM} (F : feat A V) (F' : feat A' V') X X' n n_dim
    (t : tree (pdesc NM V) S P) t' : sim F F' X X' n n_dim t t' ->
  forall d, In d (map (fun s => fst (fst s)) (splits t)) ->
    exists r s, r < n /\ s < n /\ sd_dim d < n_dim /\ f_gap F (X r (sd_dim d)) (X s (sd_dim d)) = true /\
      sd_val d = f_mid F (X r (sd_dim d)) (X s (sd_dim d)).
Proof.
  induction 1 as [i|i d nm v v' a b c1 c2 c1' c2' r s Hd Hr Hs Hg Hv Hv' H1 IH1 H2 IH2]; intros e He; [destruct He|].
  simpl in He. rewrite map_app, in_app_iff in He. destruct He as [<-|[He|He]]; auto.
  exists r, s. simpl. auto.
Qed.
Lemma mid_gap_not_nan (p a b : float64) : a <> B754_infinity true -> b <> B754_infinity true -> gap_f p a b = true -> is_nan (mid_f a b) = false.
Proof.
  intros Ha Hb Hg. destruct (is_finite a) eqn:Fa, (is_finite b) eqn:Fb.
  - apply mid_not_nan; auto. lia.
  - destruct b as [|[]| |]; try discriminate; [exfalso; apply Hb; reflexivity|rewrite mid_inf; auto|rewrite gap_nan_r in Hg; discriminate].
  - destruct a as [|[]| |]; try discriminate; [exfalso; apply Ha; reflexivity| |rewrite gap_nan_l in Hg; discriminate].
    assert (E : Bplus mode_NE (B754_infinity false) b = (B754_infinity false : float64)) by (destruct b; auto; discriminate).
    unfold mid_f. rewrite E. vm_compute. reflexivity.
  - destruct a as [|[]| |]; try discriminate; [exfalso; apply Ha; reflexivity| |rewrite gap_nan_l in Hg; discriminate].
    destruct b as [|[]| |]; try discriminate; [exfalso; apply Hb; reflexivity|rewrite gap_inf in Hg; discriminate|rewrite gap_nan_r in Hg; discriminate].
Qed.

Lemma lookup_nan {S P O} (val : ninfo P -> O) (X : nat -> nat -> float64) (t : tree (pdesc string float64) S P) i :
  (forall e, In e (map (fun s => fst (fst s)) (splits t)) -> is_nan (sd_val e) = false) ->
  lookup (f_left X) (f_right X) val t i =
  if meets_nan X t i then None else lookup (f_left X) (not_left X) val t i.
Proof.
  induction t as [l|l e a b c1 IH1 c2 IH2]; intros Hv; [reflexivity|]. cbn [lookup meets_nan].
  cbn [splits map] in Hv. assert (He : is_nan (sd_val e) = false) by (apply Hv; left; auto).
  rewrite IH1 by (intros e' H'; apply Hv; right; rewrite map_app; apply in_or_app; auto).
  rewrite IH2 by (intros e' H'; apply Hv; right; rewrite map_app; apply in_or_app; auto).
  unfold f_right, f_left, not_left in *. destruct (is_nan (X i (sd_dim e))) eqn:En; cbn [orb].
  - destruct (X i (sd_dim e)); try discriminate. destruct (sd_val e) as [[]|[]| |[]]; reflexivity.
  - rewrite (Bleb_negb 53 1024) by auto. unfold f_left. destruct (Bltb (X i (sd_dim e)) (sd_val e)); cbn [negb].
    + destruct (meets_nan X c1 i); auto.
    + destruct (meets_nan X c2 i); auto.
Qed.
