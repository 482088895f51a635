(** * FloatImpProofs: rounding errors of the float64 feature importance. *)
From Coq Require Import Reals Lra Permutation Psatz String.
From Flocq Require Import Core BinarySingleNaN.
From Verif Require Import Prelude Lists Tree Perp RealOps ClfSpec ClfProofs Api Spec PredictProofs FitProofs StructProofs PruneProofs ImportanceSpec ImportanceProofs
  FloatFeat FloatReg FloatSum FloatNG FloatClfSum FloatClfErr FloatImp FloatImpSpec.
Local Open Scope R_scope.

Section Imp.
Context {V P : Type}.
Notation tree := (tree (pdesc string V) float64 P).
Notation split := (pdesc string V * float64 * float64)%type.

(** The computed gain of a split. *)
Definition cgain (s : split) : float64 := f_sub (snd s) (snd (fst s)).
Definition on (f : nat) (l : list split) : list split := filter (fun s => Nat.eqb (feature64 s) f) l.

Lemma on_app f l l' : on f (l ++ l') = on f l ++ on f l'.
Proof. apply filter_app. Qed.

Lemma f_update_spec (t : tree) : forall fi (l : nat -> list float64),
  (forall s, In s (splits t) -> (feature64 s < length fi)%nat) ->
  (forall f, (f < length fi)%nat -> sum_of (l f) (nth f fi f_zero)) ->
  exists fi', f_update_importance t fi = Ok fi' /\ length fi' = length fi /\
    forall f, (f < length fi)%nat -> sum_of (l f ++ map cgain (on f (splits t))) (nth f fi' f_zero).
Proof.
  induction t as [i|i s a b c1 IH1 c2 IH2]; intros fi l H Hl.
  - exists fi. split; [reflexivity|]. split; [reflexivity|]. intros f Hf. cbn [splits on filter map]. rewrite app_nil_r. auto.
  - cbn [f_update_importance]. assert (Hs : (sd_dim s < length fi)%nat) by (apply (H (s, a, b)); left; reflexivity).
    rewrite (proj2 (Nat.ltb_lt _ _) Hs). cbv zeta. set (fi0 := set_nth _ _ fi).
    assert (L0 : length fi0 = length fi) by apply set_nth_len.
    destruct (IH1 fi0 (fun f => l f ++ (if Nat.eqb (sd_dim s) f then [f_sub b a] else []))) as (f1 & E1 & L1 & N1).
    { intros u Hu. rewrite L0. apply H. cbn [splits]. right. apply in_app_iff. auto. }
    { intros f Hf. rewrite L0 in Hf. unfold fi0. rewrite nth_set_nth by exact Hs. rewrite (Nat.eqb_sym f).
      destruct (Nat.eqb_spec (sd_dim s) f) as [->|Hne]; [|rewrite app_nil_r; auto].
      apply (sum_two _ (l f) [f_sub b a]); [apply Permutation_refl|auto|constructor]. }
    rewrite E1. cbn [rbind]. rewrite L0 in L1, N1.
    destruct (IH2 f1 _ ltac:(intros u Hu; rewrite L1; apply H; cbn [splits]; right; apply in_app_iff; auto) ltac:(rewrite L1; exact N1)) as (f2 & E2 & L2 & N2).
    exists f2. split; [exact E2|]. split; [congruence|]. intros f Hf. rewrite L1 in N2. specialize (N2 f Hf).
    cbn [splits]. replace (l f ++ map cgain (on f ((s, a, b) :: splits c1 ++ splits c2)))
      with (((l f ++ (if Nat.eqb (sd_dim s) f then [f_sub b a] else [])) ++ map cgain (on f (splits c1))) ++ map cgain (on f (splits c2))); [exact N2|].
    cbn [on filter]. change (feature64 (s, a, b)) with (sd_dim s).
    fold (on f (splits c1 ++ splits c2)). rewrite on_app. destruct (Nat.eqb (sd_dim s) f); cbn [map]; rewrite map_app, <- !app_assoc; reflexivity.
Qed.

Definition good_split (s : split) : Prop :=
  is_finite (snd (fst s)) = true /\ is_finite (snd s) = true /\ Rabs (B2R (snd (fst s))) <= b2 900 /\ Rabs (B2R (snd s)) <= b2 900 /\
  B2R (snd (fst s)) < B2R (snd s).

Lemma b2_901 : b2 901 = 2 * b2 900.
Proof. change 901%Z with (1 + 900)%Z. rewrite bpow_plus. reflexivity. Qed.
Lemma cgain_ok s : good_split s -> is_finite (cgain s) = true /\ 0 < gain64 s <= b2 901 /\
  gain64 s * (1 - u53) <= B2R (cgain s) <= gain64 s * (1 + u53).
Proof.
  intros (F0 & F1 & B0 & B1 & Hlt). unfold cgain, gain64.
  assert (Hb : Rabs (B2R (snd s) - B2R (snd (fst s))) <= b2 901).
  { rewrite b2_901. apply Rabs_le_inv in B0. apply Rabs_le_inv in B1. apply Rabs_le. lra. }
  destruct (sub_ok _ _ F1 F0) as [Fc Ec]; [eapply Rle_trans; [exact Hb|]; apply b2_le; lia|].
  split; [exact Fc|]. rewrite Rabs_pos_eq in Hb by lra. split; [lra|].
  pose proof (sub_rel _ _ (fmt_B2R (snd s)) (fmt_B2R (snd (fst s)))) as H. rewrite <- Ec, (Rabs_pos_eq (B2R (snd s) - B2R (snd (fst s)))) in H by lra.
  apply Rabs_le_inv in H. lra.
Qed.

Lemma u53_pos : 0 < u53 <= / 9007199254740992. Proof. rewrite u53_val. lra. Qed.

Lemma gains_ok l : Forall good_split l ->
  Forall nonneg_fin (map cgain l) /\ 0 <= vsum (map gain64 l) <= INR (length l) * b2 901 /\
  vsum (map gain64 l) * (1 - u53) <= vsum (vals (map cgain l)) <= vsum (map gain64 l) * (1 + u53) /\
  (l <> [] -> 0 < vsum (map gain64 l)).
Proof.
  pose proof u53_pos as Hu.
  induction 1 as [|s l Hs Hl (I1 & I2 & I3 & _)].
  - cbn. unfold vsum. simpl. split; [constructor|]. split; [lra|]. split; [lra|congruence].
  - destruct (cgain_ok s Hs) as (F & G & H). unfold vals in *. cbn [map]. rewrite !vsum_cons. cbn [length]. rewrite S_INR.
    split; [constructor; [split; [exact F|nra]|exact I1]|]. split; [nra|]. split; [lra|]. intros _. lra.
Qed.

(** One entry of the array before the normalisation. *)
Lemma entry_ok f (l : list split) a : Forall good_split l -> INR (length l + 1) <= b2 20 ->
  sum_of ([f_zero] ++ map cgain (on f l)) a ->
  let g := vsum (map gain64 (on f l)) in let k := INR (length l + 1) in
  nonneg_fin a /\ g * (1 - 2 * k * u53) <= B2R a <= g * (1 + 4 * k * u53).
Proof.
  intros Hl Hn Ha g k. pose proof u53_pos as Hu.
  assert (Hon : Forall good_split (on f l)).
  { rewrite Forall_forall in *. intros s Hs. apply filter_In in Hs as [Hs _]. auto. }
  destruct (gains_ok _ Hon) as (N & G & C & _). fold g in G, C.
  assert (Hlen : (length (on f l) <= length l)%nat).
  { unfold on. clear. induction l as [|x l IH]; cbn; [lia|]. destruct (Nat.eqb _ f); cbn [length]; lia. }
  assert (Hk : INR (length (on f l)) + 1 <= k <= b2 20).
  { split; [|exact Hn]. unfold k. rewrite plus_INR. apply le_INR in Hlen. simpl (INR 1). lra. }
  change (b2 20) with 1048576 in Hk. pose proof (pos_INR (length (on f l))) as Hp.
  destruct (sum_err _ _ Ha) as (S1 & S2 & _).
  - constructor; [split; [reflexivity|cbn; lra]|exact N].
  - unfold vals in *. cbn [map app]. rewrite vsum_cons. change (B2R f_zero) with 0.
    assert (b2 950 = b2 49 * b2 901) as -> by (rewrite <- bpow_plus; reflexivity). change (b2 49) with 562949953421312.
    pose proof (b2_pos 901) as Hb. nra.
  - cbn [length app]. rewrite map_length, S_INR. change (b2 20) with 1048576. lra.
  - split; [exact S1|]. unfold vals in *. cbn [length app map] in S2. rewrite map_length, vsum_cons, S_INR in S2. change (B2R f_zero) with 0 in S2. rewrite Rplus_0_l in S2.
    set (x := vsum (map B2R (map cgain (on f l)))) in *. set (m := INR (length (on f l))) in *. clearbody x m k g. clear - S2 C G Hk Hp Hu.
    destruct S2 as [S2 S3]. destruct C as [C1 C2].
    assert (K : 0 <= k * u53 <= / 1000) by nra. assert (M : (m + 1) * u53 <= k * u53) by nra. assert (U : u53 <= k * u53) by nra. set (e := k * u53) in *.
    replace (2 * k * u53) with (2 * e) by (unfold e; ring). replace (4 * k * u53) with (4 * e) by (unfold e; ring). replace (2 * (m + 1) * u53) with (2 * ((m + 1) * u53)) in S3 by ring.
    set (e' := (m + 1) * u53) in *. assert (0 <= e') by (unfold e'; nra).
    assert (X : 0 <= x) by nra. split.
    + apply Rle_trans with (x * (1 - e)); [|nra]. apply Rle_trans with (g * (1 - u53) * (1 - e)); [|apply Rmult_le_compat_r; lra]. rewrite Rmult_assoc. apply Rmult_le_compat_l; [lra|]. nra.
    + apply Rle_trans with (x * (1 + 2 * e')); [lra|]. apply Rle_trans with (g * (1 + u53) * (1 + 2 * e')); [apply Rmult_le_compat_r; lra|]. rewrite Rmult_assoc. apply Rmult_le_compat_l; [lra|]. nra.
Qed.

Lemma total_features n (l : list split) : (forall s, In s l -> (feature64 s < n)%nat) ->
  vsum (map (fun f => vsum (map gain64 (on f l))) (seq 0 n)) = vsum (map gain64 l).
Proof.
  induction l as [|s l IH]; intros H.
  - cbn [on filter map]. clear. change (vsum []) with 0. induction (seq 0 n) as [|f l IH]; cbn [map]; [reflexivity|]. rewrite vsum_cons, IH. lra.
  - cbn [map]. rewrite vsum_cons, <- IH by (intros u Hu; apply H; right; exact Hu).
    assert (Hs : (feature64 s < n)%nat) by (apply H; left; reflexivity). clear IH H.
    assert (G : forall m a, (a <= feature64 s < a + m)%nat \/ ~ (a <= feature64 s < a + m)%nat /\ True ->
      vsum (map (fun f => vsum (map gain64 (on f (s :: l)))) (seq a m)) =
      (if (a <=? feature64 s)%nat && (feature64 s <? a + m)%nat then gain64 s else 0) + vsum (map (fun f => vsum (map gain64 (on f l))) (seq a m))).
    { induction m as [|m IHm]; intros a _; cbn [seq map].
      - change (vsum []) with 0. destruct (Nat.leb_spec a (feature64 s)); destruct (Nat.ltb_spec (feature64 s) (a + 0)); cbn [andb]; try lra. lia.
      - rewrite !vsum_cons, IHm by (destruct (le_lt_dec (S a) (feature64 s)), (le_lt_dec (S a + m) (feature64 s)); [right|left|right|right]; lia).
        cbn [on filter]. fold (on a l). destruct (Nat.eqb_spec (feature64 s) a) as [E|E]; cbn [map]; rewrite ?vsum_cons;
        destruct (Nat.leb_spec (S a) (feature64 s)); destruct (Nat.leb_spec a (feature64 s)); destruct (Nat.ltb_spec (feature64 s) (S a + m)); destruct (Nat.ltb_spec (feature64 s) (a + S m)); cbn [andb]; try lia; lra. }
    rewrite G by (left; lia). destruct (Nat.leb_spec 0 (feature64 s)); destruct (Nat.ltb_spec (feature64 s) (0 + n)); cbn [andb]; try lia. lra.
Qed.

Lemma vsum_bounds (l : list nat) (g h : nat -> R) a b : (forall f, In f l -> g f * a <= h f <= g f * b) ->
  vsum (map g l) * a <= vsum (map h l) <= vsum (map g l) * b.
Proof.
  induction l as [|f l IH]; intros H; cbn [map].
  - change (vsum []) with 0. lra.
  - rewrite !vsum_cons. specialize (IH (fun x Hx => H x (or_intror Hx))). specialize (H f (or_introl eq_refl)). lra.
Qed.

Lemma quotient_rel g G E T e : 0 < e <= / 1000 -> 0 < G -> 0 <= g -> g * (1 - 2 * e) <= E <= g * (1 + 4 * e) -> G * (1 - 2 * e) <= T <= G * (1 + 5 * e) ->
  0 < T /\ g / G * (1 - 8 * e) <= E / T <= g / G * (1 + 8 * e).
Proof.
  intros He HG Hg HE HT. assert (T0 : 0 < T) by nra. split; [exact T0|].
  set (r := g / G). assert (Er : g = r * G) by (unfold r; field; lra). assert (R0 : 0 <= r) by (unfold r, Rdiv; apply Rmult_le_pos; [lra|left; apply Rinv_0_lt_compat; lra]).
  rewrite Er in HE. split.
  - apply Rmult_le_reg_r with T; [exact T0|]. replace (E / T * T) with E by (field; lra).
    apply Rle_trans with (r * (1 - 8 * e) * (G * (1 + 5 * e))); [apply Rmult_le_compat_l; [apply Rmult_le_pos; lra|lra]|].
    apply Rle_trans with (r * G * (1 - 2 * e)); [|lra].
    replace (r * (1 - 8 * e) * (G * (1 + 5 * e))) with (r * G * ((1 - 8 * e) * (1 + 5 * e))) by ring. apply Rmult_le_compat_l; [apply Rmult_le_pos; lra|]. nra.
  - apply Rmult_le_reg_r with T; [exact T0|]. replace (E / T * T) with E by (field; lra).
    apply Rle_trans with (r * (1 + 8 * e) * (G * (1 - 2 * e))); [|apply Rmult_le_compat_l; [apply Rmult_le_pos; lra|lra]].
    apply Rle_trans with (r * G * (1 + 4 * e)); [lra|].
    replace (r * (1 + 8 * e) * (G * (1 - 2 * e))) with (r * G * ((1 + 8 * e) * (1 - 2 * e))) by ring. apply Rmult_le_compat_l; [apply Rmult_le_pos; lra|]. nra.
Qed.

Theorem importance64_spec fsum n_dim (t : tree) : (forall l, sum_of l (fsum l)) ->
  i_n_dim (info t) = Some n_dim -> splits t <> [] -> (Z.of_nat (length (splits t) + n_dim + 1) <= 2 ^ 20)%Z ->
  scores_finite t -> (forall s, In s (splits t) -> (feature64 s < n_dim)%nat /\ Bltb (snd (fst s)) (snd s) = true) ->
  exists v, f_feature_importance fsum t = Ok v /\ importance64 n_dim t v.
Proof.
  intros Hsum Hn Hne Hk Hfin Hsp. pose proof u53_pos as Hu.
  set (l := splits t) in *. set (K := INR (length l + n_dim + 1)).
  assert (HK : 1 <= K <= b2 20).
  { split; [apply (le_INR 1); lia|]. unfold K. rewrite INR_IZR_INZ. change (b2 20) with (IZR (2 ^ 20)). apply IZR_le. exact Hk. }
  assert (Hl : Forall good_split l).
  { apply Forall_forall. intros s Hs. destruct (Hfin s Hs) as (F0 & F1 & B0 & B1). destruct (Hsp s Hs) as [_ H]. repeat split; auto.
    rewrite (Bltb_correct 53 1024 _ _ F0 F1) in H. destruct (Rlt_bool_spec (B2R (snd (fst s))) (B2R (snd s))); [assumption|discriminate]. }
  destruct (gains_ok l Hl) as (_ & HG & _ & HGp). specialize (HGp Hne). set (G := vsum (map gain64 l)) in *.
  unfold f_feature_importance. rewrite Hn.
  destruct (f_update_spec t (repeat f_zero n_dim) (fun _ => [f_zero])) as (fi & E & L & N).
  { intros s Hs. rewrite repeat_length. apply Hsp. exact Hs. }
  { intros f Hf. rewrite repeat_length in Hf. rewrite nth_repeat. constructor. }
  rewrite E. cbn [rbind]. rewrite repeat_length in *. fold l in N.
  set (m := INR (length l + 1)). assert (Km : K = m + INR n_dim) by (unfold K, m; rewrite <- plus_INR; f_equal; lia).
  pose proof (pos_INR n_dim) as Pn. assert (Hm : 1 <= m) by (apply (le_INR 1); lia). change (b2 20) with 1048576 in HK.
  assert (He : forall f, (f < n_dim)%nat -> nonneg_fin (nth f fi f_zero) /\ vsum (map gain64 (on f l)) * (1 - 2 * m * u53) <= B2R (nth f fi f_zero) <= vsum (map gain64 (on f l)) * (1 + 4 * m * u53)).
  { intros f Hf. apply entry_ok; auto. fold m. change (b2 20) with 1048576. lra. }
  assert (Hfi : fi = map (fun f => nth f fi f_zero) (seq 0 n_dim)).
  { rewrite <- L. clear. apply nth_ext with f_zero f_zero; [rewrite map_length, seq_length; reflexivity|]. intros k Hk.
    rewrite (nth_indep (map (fun f => nth f fi f_zero) (seq 0 (length fi))) f_zero (nth 0 fi f_zero)) by (rewrite map_length, seq_length; exact Hk).
    rewrite (map_nth (fun f => nth f fi f_zero)), seq_nth by exact Hk. reflexivity. }
  assert (Hnn : Forall nonneg_fin fi).
  { rewrite Hfi. apply Forall_forall. intros a Ha. apply in_map_iff in Ha as (f & <- & Hf). apply in_seq in Hf. apply He. lia. }
  assert (Hv : vsum (vals fi) = vsum (map (fun f => B2R (nth f fi f_zero)) (seq 0 n_dim))) by (unfold vals; rewrite Hfi at 1; rewrite map_map; reflexivity).
  pose proof (vsum_bounds (seq 0 n_dim) (fun f => vsum (map gain64 (on f l))) (fun f => B2R (nth f fi f_zero)) (1 - 2 * m * u53) (1 + 4 * m * u53)) as Hb.
  rewrite total_features in Hb by (intros s Hs; apply Hsp; exact Hs). fold G in Hb. rewrite <- Hv in Hb.
  specialize (Hb ltac:(intros f Hf; apply in_seq in Hf; apply He; lia)).
  destruct (sum_err fi (fsum fi) (Hsum fi) Hnn) as (S1 & S2 & S3).
  { eapply Rle_trans; [apply Hb|]. assert (4 * m * u53 <= 1) by nra. 
    assert (b2 950 = b2 49 * b2 901) as -> by (rewrite <- bpow_plus; reflexivity). change (b2 49) with 562949953421312.
    assert (INR (length l) <= m) by (unfold m; rewrite plus_INR; simpl (INR 1); lra). pose proof (b2_pos 901) as Hb9.
    assert (G <= 1048576 * b2 901) by nra. nra. }
  { rewrite L. change (b2 20) with 1048576. lra. }
  rewrite L in S2. set (e := K * u53). assert (He1 : 0 < e <= / 1000) by (unfold e; nra).
  assert (Em : m * u53 + INR n_dim * u53 = e) by (unfold e; rewrite Km; ring).
  assert (HT : G * (1 - 2 * e) <= B2R (fsum fi) <= G * (1 + 5 * e)).
  { assert (A0 : 0 < m * u53) by nra. assert (B0 : 0 <= INR n_dim * u53) by nra. replace (2 * m * u53) with (2 * (m * u53)) in Hb by ring. replace (4 * m * u53) with (4 * (m * u53)) in Hb by ring.
    replace (2 * INR n_dim * u53) with (2 * (INR n_dim * u53)) in S2 by ring.
    set (x := m * u53) in *. set (z := INR n_dim * u53) in *. set (w := vsum (vals fi)) in *. clearbody x z w. clear - S2 Hb He1 Em A0 B0 HGp. split.
    - apply Rle_trans with (w * (1 - z)); [|lra]. apply Rle_trans with (G * (1 - 2 * x) * (1 - z)); [|apply Rmult_le_compat_r; lra]. rewrite Rmult_assoc. apply Rmult_le_compat_l; [lra|]. nra.
    - apply Rle_trans with (w * (1 + 2 * z)); [lra|]. apply Rle_trans with (G * (1 + 4 * x) * (1 + 2 * z)); [apply Rmult_le_compat_r; lra|]. rewrite Rmult_assoc. apply Rmult_le_compat_l; [lra|]. nra. }
  assert (Hq : forall f, (f < n_dim)%nat -> is_finite (f_div (nth f fi f_zero) (fsum fi)) = true /\ 0 <= B2R (f_div (nth f fi f_zero) (fsum fi)) <= 1 /\
     Rabs (B2R (f_div (nth f fi f_zero) (fsum fi)) - share64 t f) <= 10 * K * u53 * share64 t f + b2 (-1075)).
  { intros f Hf. destruct (He f Hf) as [[Ff Pf] Bf]. set (a := nth f fi f_zero) in *.
    assert (Hg : 0 <= vsum (map gain64 (on f l))).
    { apply gains_ok. rewrite Forall_forall in *. intros s Hs. apply filter_In in Hs as [Hs _]. auto. }
    destruct (quotient_rel (vsum (map gain64 (on f l))) G (B2R a) (B2R (fsum fi)) e He1 HGp Hg) as [T0 HQ]; [|exact HT|].
    { assert (m * u53 <= e) by (rewrite <- Em; nra). destruct Bf as [Bf1 Bf2]. split.
      - eapply Rle_trans; [|exact Bf1]. apply Rmult_le_compat_l; [exact Hg|]. lra.
      - eapply Rle_trans; [exact Bf2|]. apply Rmult_le_compat_l; [exact Hg|]. lra. }
    change (vsum (map gain64 (on f l)) / G) with (share64 t f) in HQ.
    assert (Ha : B2R a <= B2R (fsum fi)).
    { rewrite Forall_forall in S3. apply S3. apply nth_In. lia. }
    assert (Q1 : 0 <= B2R a / B2R (fsum fi) <= 1).
    { split; [apply Rmult_le_pos; [exact Pf|left; apply Rinv_0_lt_compat; exact T0]|]. apply Rmult_le_reg_r with (B2R (fsum fi)); [exact T0|]. unfold Rdiv. rewrite Rmult_assoc, Rinv_l by lra. lra. }
    destruct (div_ok a (fsum fi) Ff ltac:(lra)) as [Fd Ed].
    { rewrite Rabs_pos_eq by lra. apply Rle_trans with 1; [lra|]. change 1 with (b2 0). apply b2_le. lia. }
    split; [exact Fd|]. rewrite Ed. split.
    { split; [rewrite <- (RN64_fmt 0) by apply generic_format_0; apply RN64_le; lra|].
      rewrite <- (RN64_fmt 1) by (rewrite <- (proj2 one_ok); apply fmt_B2R). apply RN64_le. lra. }
    pose proof (RN64_err (B2R a / B2R (fsum fi))) as R1. rewrite (Rabs_pos_eq (B2R a / _)) in R1 by lra.
    assert (R0 : 0 <= share64 t f) by (unfold share64; apply Rmult_le_pos; [exact Hg|left; apply Rinv_0_lt_compat; exact HGp]).
    replace (10 * K * u53) with (10 * e) by (unfold e; ring). assert (U : u53 <= e) by (unfold e; nra).
    apply Rabs_le_inv in R1. apply Rabs_le. set (q := B2R a / B2R (fsum fi)) in *. set (r := share64 t f) in *. clearbody q r.
    assert (u53 * q <= 2 * (e * r)); [|nra]. apply Rle_trans with (e * q); [apply Rmult_le_compat_r; lra|].
    replace (2 * (e * r)) with (e * (2 * r)) by ring. apply Rmult_le_compat_l; [lra|]. nra. }
  exists (map (fun x => f_div x (fsum fi)) fi). split; [reflexivity|].
  assert (Hnth : forall f, (f < n_dim)%nat -> nth f (map (fun x => f_div x (fsum fi)) fi) f_zero = f_div (nth f fi f_zero) (fsum fi)).
  { intros f Hf. rewrite nth_indep with (d' := f_div f_zero (fsum fi)) by (rewrite map_length; lia).
    exact (map_nth (fun x => f_div x (fsum fi)) fi f_zero f). }
  split; [rewrite map_length; exact L|]. fold l. fold K. split.
  { apply Forall_forall. intros a Ha. apply in_map_iff in Ha as (x & <- & Hx). apply (In_nth _ _ f_zero) in Hx as (f & Hf & <-). rewrite L in Hf.
    destruct (Hq f Hf) as (A & B & _). auto. }
  split; [intros f Hf; rewrite Hnth by exact Hf; apply Hq; exact Hf|]. split.
  { intros f Hf Hun. rewrite Hnth by exact Hf. destruct (Hq f Hf) as (Fq & Bq & Hq').
    assert (Eon : on f l = []).
    { unfold on. clear - Hun. induction l as [|s l' IH]; [reflexivity|]. cbn [filter]. rewrite (proj2 (Nat.eqb_neq _ _)) by (apply Hun; left; reflexivity). apply IH. intros u Hu. apply Hun. right. exact Hu. }
    destruct (He f Hf) as [[Ff Pf] Bf]. rewrite Eon in Bf. cbn [map] in Bf. change (vsum []) with 0 in Bf.
    assert (E0 : B2R (nth f fi f_zero) = 0) by lra.
    destruct (div_ok (nth f fi f_zero) (fsum fi) Ff ltac:(nra)) as [_ ->]; rewrite E0; unfold Rdiv; rewrite Rmult_0_l; [rewrite Rabs_R0; left; apply b2_pos|apply RN64_fmt, generic_format_0]. }
  (* the sum *)
  replace (map B2R (map (fun x => f_div x (fsum fi)) fi)) with (map (fun f => B2R (f_div (nth f fi f_zero) (fsum fi))) (seq 0 n_dim)).
  2:{ generalize (fsum fi). intros T. transitivity (map (fun x => B2R (f_div x T)) (map (fun f => nth f fi f_zero) (seq 0 n_dim))); [rewrite map_map; reflexivity|].
      rewrite <- Hfi, map_map. reflexivity. }
  assert (Hs1 : vsum (map (share64 t) (seq 0 n_dim)) = 1).
  { unfold share64. fold l. fold G. rewrite <- (map_map (fun f => vsum (map gain64 (on f l))) (fun x => x / G)), vsum_div, total_features by (intros s Hs; apply Hsp; exact Hs). fold G. field. lra. }
  assert (Hind : forall a k, (a + k <= n_dim)%nat -> Rabs (vsum (map (fun f => B2R (f_div (nth f fi f_zero) (fsum fi))) (seq a k)) - vsum (map (share64 t) (seq a k)))
     <= 10 * K * u53 * vsum (map (share64 t) (seq a k)) + INR k * b2 (-1075)).
  { intros a k. revert a. induction k as [|k IH]; intros a Hak.
    - cbn [seq map]. change (vsum []) with 0. simpl (INR 0). rewrite Rminus_0_r, Rabs_R0. lra.
    - cbn [seq map]. rewrite !vsum_cons, S_INR. specialize (IH (S a) ltac:(lia)). destruct (Hq a ltac:(lia)) as (_ & _ & H1).
      apply Rabs_le_inv in IH. apply Rabs_le_inv in H1. apply Rabs_le. lra. }
  specialize (Hind 0%nat n_dim ltac:(lia)). rewrite Hs1 in Hind. lra.
Qed.
End Imp.
