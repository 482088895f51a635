(** * IntProofs: integer features and integer targets. *)
From Coq Require Import Permutation Sorted.
From Verif Require Import Prelude Lists Tree Perp Gamma RealOps Reg Spec PruneProofs FitProofs OptSpec OptProofs OptFit
  ClfSpec ClfProofs RegProofs Api ApiSpec ApiProofs Routing IntFeat.
Local Open Scope Z_scope.

Definition in_range (t : ity) (x : Z) : Prop := i_lo t <= x < i_hi t.

Lemma bits_split t : 0 < it_bits t -> i_hi t = i_lo t + 2 ^ it_bits t.
Proof.
  intros H. unfold i_hi, i_lo. destruct (it_signed t); [|lia].
  replace (it_bits t) with (it_bits t - 1 + 1) at 3 by lia. rewrite Z.pow_add_r by lia. lia.
Qed.
Lemma wrap_id t x : 0 < it_bits t -> in_range t x -> wrap t x = x.
Proof.
  intros Hb [H1 H2]. pose proof (bits_split t Hb). unfold wrap. rewrite Z.mod_small by lia. lia.
Qed.
Lemma wrap_range t x : 0 < it_bits t -> in_range t (wrap t x).
Proof.
  intros Hb. pose proof (bits_split t Hb). unfold wrap, in_range.
  pose proof (Z.mod_pos_bound (x - i_lo t) (2 ^ it_bits t) ltac:(apply Z.pow_pos_nonneg; lia)). lia.
Qed.
Lemma wrap_mod t x k : wrap t (x + k * 2 ^ it_bits t) = wrap t x.
Proof.
  unfold wrap. f_equal. replace (x + k * 2 ^ it_bits t - i_lo t) with (x - i_lo t + k * 2 ^ it_bits t) by lia.
  destruct (Z.eq_dec (2 ^ it_bits t) 0) as [E|E]; [rewrite E; f_equal; lia|]. apply Z.mod_add. auto.
Qed.
Lemma wrap_plus_out t x k : 0 < it_bits t -> in_range t (x + k * 2 ^ it_bits t) -> wrap t x = x + k * 2 ^ it_bits t.
Proof. intros Hb H. rewrite <- (wrap_mod t x k). apply wrap_id; auto. Qed.
Lemma lo_bounds t : 0 < it_bits t -> i_lo t <= 0 < i_hi t.
Proof.
  intros Hb. unfold i_lo, i_hi. destruct (it_signed t).
  - assert (0 < 2 ^ (it_bits t - 1)) by (apply Z.pow_pos_nonneg; lia). lia.
  - assert (0 < 2 ^ it_bits t) by (apply Z.pow_pos_nonneg; lia). lia.
Qed.

(** ** Features *)
(** Equal values are never separated. *)
Lemma absdiff_pos t a : 0 < it_bits t -> absdiff_i t a a = 0.
Proof.
  intros Hb. unfold absdiff_i. rewrite Z.sub_diag, (wrap_id t 0); auto; [|apply (lo_bounds t Hb)].
  apply wrap_id; auto. apply (lo_bounds t Hb).
Qed.
Lemma gap_i_neq t prec a b srt : 0 < it_bits t -> (0 <= prec)%R -> f_gap (feat_i t prec srt) a b = true -> a <> b.
Proof.
  intros Hb Hp Hg ->. simpl in Hg. rewrite absdiff_pos in Hg by auto. apply Rgtb_true in Hg. lra.
Qed.

(** All entries are values of the type. *)
Definition entries_in (t : ity) (X : nat -> nat -> Z) (n n_dim : nat) : Prop :=
  forall i d, (i < n)%nat -> (d < n_dim)%nat -> in_range t (X i d).
(** Sums of two different values of a column that the fit may separate fit into the type. *)
Definition sums_in (t : ity) (prec : R) (X : nat -> nat -> Z) (n n_dim : nat) : Prop :=
  forall i j d, (i < n)%nat -> (j < n)%nat -> (d < n_dim)%nat -> X i d < X j d ->
    (IZR (absdiff_i t (X i d) (X j d)) > prec)%R -> in_range t (X i d + X j d).

Lemma int_threshold t prec srt X n n_dim : 0 < it_bits t -> (0 <= prec)%R ->
  sums_in t prec X n n_dim -> threshold_ok (feat_i t prec srt) Z.leb X n n_dim.
Proof.
  intros Hb Hp Hs d i j r Hd Hi Hj Hr Hle Hg. pose proof (gap_i_neq t prec _ _ srt Hb Hp Hg) as Hne.
  apply Z.leb_le in Hle. cbn [feat_i f_gap f_lt f_ge f_mid] in *.
  assert (Hin : in_range t (X i d + X j d)) by (apply Hs; auto; [lia|apply Rgtb_true; auto]).
  rewrite (wrap_id t _ Hb Hin).
  rewrite !Z.leb_le. split; intros H; split; first [apply Z.ltb_lt; lia|apply Z.ltb_ge; lia|apply Z.leb_le; lia|apply Z.leb_gt; lia].
Qed.

(** A split between two values whose sum does not fit misroutes one of the two rows. *)
Lemma overflow_misroutes t prec srt a b : 0 < it_bits t -> in_range t a -> in_range t b -> a < b ->
  ~ in_range t (a + b) ->
  let F := feat_i t prec srt in
  let s := f_mid F a b in
  (f_lt F a s = false /\ f_ge F a s = true) \/ (f_lt F b s = true /\ f_ge F b s = false).
Proof.
  intros Hb Ha Hb' Hab Hout. cbn [feat_i f_gap f_lt f_ge f_mid]. pose proof (bits_split t Hb) as Hbs. pose proof (lo_bounds t Hb) as Hl.
  set (M := 2 ^ it_bits t) in *. unfold in_range in *.
  assert (Hlo : i_lo t = 0 \/ 2 * i_lo t = - M).
  { unfold i_lo, M. destruct (it_signed t); auto. right.
    replace (it_bits t) with (it_bits t - 1 + 1) at 2 by lia. rewrite Z.pow_add_r by lia. lia. }
  destruct (Z_lt_le_dec (a + b) (i_lo t)) as [H|H].
  - (* below the range: the split value is too large *)
    right. rewrite (wrap_plus_out t (a + b) 1) by (auto; unfold in_range; fold M; lia). fold M.
    split; [apply Z.ltb_lt|apply Z.leb_gt]; lia.
  - (* above the range: the split value is too small *)
    left. rewrite (wrap_plus_out t (a + b) (-1)) by (auto; unfold in_range; fold M; lia). fold M.
    split; [apply Z.ltb_ge|apply Z.leb_le]; lia.
Qed.

(** ** Targets *)
Section Targets.
Variable t : ity.
Hypothesis Hbits : 0 < it_bits t.
Variables B N : Z.     (* bound of the targets, bound of the number of targets *)
Hypothesis HB : 0 <= B.
Hypothesis HBB : B * B < i_hi t.
Hypothesis HNB : (N * B) * (N * B) < i_hi (acc t).
Hypothesis HNN : N * N * B < i_hi (acc t).

Definition target_ok (y : Z) : Prop := Z.abs y <= B /\ (it_signed t = false -> 0 <= y).

Lemma acc_bits : 0 < it_bits (acc t). Proof. reflexivity. Qed.

Lemma acc_in x : (it_signed t = false -> 0 <= x) -> - i_hi (acc t) < x < i_hi (acc t) -> wrap (acc t) x = x.
Proof.
  intros Hs Hx. apply wrap_id; [reflexivity|]. unfold in_range, i_lo, i_hi, acc in *. simpl in *.
  destruct (it_signed t); [lia|]. specialize (Hs eq_refl). lia.
Qed.

Lemma zsum_app a b : zsum' (a ++ b) = zsum' a + zsum' b.
Proof. unfold zsum'. induction a; simpl; lia. Qed.
Lemma zsum_bound l : Forall target_ok l -> Z.abs (zsum' l) <= Z.of_nat (length l) * B /\ (it_signed t = false -> 0 <= zsum' l).
Proof.
  induction 1 as [|y l [H1 H2] _ [IH1 IH2]]; unfold zsum' in *; cbn [length fold_right]; [lia|].
  rewrite Nat2Z.inj_succ. split; [lia|]. intros Hs. specialize (H2 Hs). specialize (IH2 Hs). lia.
Qed.
Lemma zsumsq_bound l : Forall target_ok l -> 0 <= zsum' (map (fun y => y * y) l) <= Z.of_nat (length l) * (B * B).
Proof.
  induction 1 as [|y l [H1 H2] _ IH]; unfold zsum' in *; cbn [length map fold_right]; [lia|].
  rewrite Nat2Z.inj_succ. nia.
Qed.
Lemma i_sq_eq l : Forall target_ok l -> i_sq t l = map (fun y => y * y) l.
Proof.
  intros H. unfold i_sq. apply map_ext_in. intros y Hy. rewrite Forall_forall in H. destruct (H y Hy) as [H1 H2].
  apply wrap_id; auto. pose proof (lo_bounds t Hbits). split; nia.
Qed.

Definition list_ok (l : list Z) : Prop := Forall target_ok l /\ Z.of_nat (length l) <= N.
Lemma list_ok_firstn l k : list_ok l -> list_ok (firstn k l).
Proof.
  intros [H1 H2]. split; [apply Forall_forall; intros y Hy; rewrite Forall_forall in H1; apply H1|].
  - rewrite <- (firstn_skipn k l). apply in_or_app; auto.
  - rewrite firstn_length. lia.
Qed.

Lemma NBB : forall n, 0 <= n <= N -> n * (B * B) < i_hi (acc t).
Proof.
  intros n Hn. destruct (Z.eq_dec n 0) as [->|]; [simpl; apply (lo_bounds (acc t)); reflexivity|].
  apply Z.le_lt_trans with ((N * B) * (N * B)); auto.
  replace ((N * B) * (N * B)) with ((N * N) * (B * B)) by ring. apply Z.mul_le_mono_nonneg_r; nia.
Qed.

Lemma sum_small l : list_ok l -> (it_signed t = false -> 0 <= zsum' l) /\ Z.abs (zsum' l) <= N * B.
Proof. intros [H1 H2]. destruct (zsum_bound l H1) as [H3 H4]. split; auto. nia. Qed.
Lemma NB_small : 0 <= N -> N * B < i_hi (acc t).
Proof. intros H. destruct (Z.eq_dec (N * B) 0) as [->|]; [apply (lo_bounds (acc t)); reflexivity|]. nia. Qed.

Lemma i_sum_eq l : list_ok l -> i_sum t l = zsum' l.
Proof.
  intros H. pose proof H as [H1 H2]. destruct (sum_small l H) as [H3 H4]. apply acc_in; auto.
  pose proof (NB_small ltac:(lia)). lia.
Qed.
Lemma i_sum_sq_eq l : list_ok l -> i_sum t (i_sq t l) = zsum' (map (fun y => y * y) l).
Proof.
  intros [H1 H2]. rewrite i_sq_eq by auto. pose proof (zsumsq_bound l H1) as H3. apply acc_in; [lia|].
  pose proof (NBB (Z.of_nat (length l)) ltac:(lia)). lia.
Qed.

Lemma IZR_zsum l : IZR (zsum' l) = vsum (map IZR l).
Proof. unfold zsum', vsum. induction l; simpl; auto. rewrite plus_IZR. congruence. Qed.
Lemma IZR_zsumsq l : IZR (zsum' (map (fun y => y * y) l)) = vsum (map (fun y => (y ^ 2)%R) (map IZR l)).
Proof. rewrite IZR_zsum, !map_map. f_equal. apply map_ext. intros y. rewrite mult_IZR. simpl. ring. Qed.

Lemma post_internal_eq prior n s q delta : 0 <= n <= N -> (it_signed t = false -> 0 <= s) -> Z.abs s <= N * B ->
  ireg_post_internal t prior n s q delta =
  reg_post_internal prior (IZR n) (IZR s) (IZR q) (match delta with None => 1 | Some d => d end)%R.
Proof.
  intros Hn Hs Hb. unfold ireg_post_internal, reg_post_internal.
  assert (Hss : 0 <= s * s <= (N * B) * (N * B)).
  { rewrite <- (Z.abs_square s). split; [nia|]. apply Z.mul_le_mono_nonneg; lia. }
  assert (Hns : Z.abs (n * s) <= N * N * B).
  { rewrite Z.abs_mul, (Z.abs_eq n) by lia. rewrite <- Z.mul_assoc. apply Z.mul_le_mono_nonneg; lia. }
  rewrite (acc_in (s * s)), mult_IZR by lia.
  replace (IZR s * IZR s)%R with (IZR s ^ 2)%R by ring.
  destruct delta as [dl|]; auto.
  rewrite (acc_in (n * s)), mult_IZR; [|intros H; specialize (Hs H); nia|lia]. rewrite Rmult_1_r. auto.
Qed.

Lemma ireg_posterior_eq delta prior l : list_ok l ->
  ireg_posterior t delta prior l = reg_posterior (match delta with None => 1 | Some d => d end)%R prior (map IZR l).
Proof.
  intros H. unfold ireg_posterior, reg_posterior.
  assert (E : (match delta with None => false | Some d => Reqb d 0 end) = Reqb (match delta with None => 1 | Some d => d end)%R 0).
  { destruct delta; auto. unfold Reqb. destruct (Req_EM_T 1 0); [lra|auto]. }
  rewrite E. destruct (Reqb _ 0); auto. rewrite i_sum_eq, i_sum_sq_eq by auto.
  destruct (sum_small l H) as [H3 H4]. destruct H as [H1 H2].
  rewrite post_internal_eq by (auto; lia).
  rewrite map_length, INR_IZR_INZ, <- IZR_zsum, <- IZR_zsumsq. auto.
Qed.

Lemma ireg_no_split_eq pp lvl prior l : list_ok l -> ireg_no_split t pp lvl prior l = reg_no_split pp lvl prior (map IZR l).
Proof.
  intros H. unfold ireg_no_split, reg_no_split. rewrite i_sum_eq, i_sum_sq_eq by auto.
  destruct (sum_small l H) as [H3 H4]. destruct H as [H1 H2].
  rewrite post_internal_eq by (auto; lia).
  rewrite map_length, INR_IZR_INZ, <- IZR_zsum, <- IZR_zsumsq. auto.
Qed.

(** Cumulative sums. *)
Lemma nth_ext0 (l l' : list R) : length l = length l' -> (forall i, (i < length l)%nat -> nth i l 0%R = nth i l' 0%R) -> l = l'.
Proof. intros H1 H2. apply nth_ext with (d := 0%R) (d' := 0%R); auto. Qed.
Lemma i_cumsum_eq (l : list Z) : (forall k, i_sum t (firstn k l) = zsum' (firstn k l)) ->
  map IZR (i_cumsum t l) = cumsum (map IZR l).
Proof.
  intros H. apply nth_ext0.
  - unfold i_cumsum, cumsum. rewrite !map_length, seq_length, cumsum_from_length, map_length. auto.
  - intros i Hi. unfold i_cumsum in *. rewrite !map_length, seq_length in Hi.
    rewrite cumsum_nth by (rewrite map_length; auto).
    rewrite (map_nth IZR).
    rewrite nth_indep with (d' := i_sum t (firstn 0 l)) by (rewrite map_length, seq_length; auto).
    rewrite map_nth with (f := fun k => i_sum t (firstn k l)), seq_nth, H by auto.
    rewrite IZR_zsum, firstn_map. auto.
Qed.
Lemma map_removelast {A C} (f : A -> C) l : map f (removelast l) = removelast (map f l).
Proof. induction l as [|a l IH]; auto. destruct l; auto. simpl in *. f_equal. auto. Qed.
Lemma Forall_removelast {A} (Q : A -> Prop) l : Forall Q l -> Forall Q (removelast l).
Proof.
  intros H. induction H as [|a l Ha H IH]; [constructor|]. destruct l; [constructor|]. simpl in *. constructor; auto.
Qed.

Lemma ireg_side_eq prior ns sums sqs : Forall (fun n => 0 <= n <= N) ns ->
  Forall (fun s => (it_signed t = false -> 0 <= s) /\ Z.abs s <= N * B) sums ->
  ireg_side t prior ns sums sqs = reg_side prior (map IZR ns) (map IZR sums) (map IZR sqs).
Proof.
  intros Hn. revert sums sqs. induction Hn as [|n ns Hn _ IH]; intros sums sqs Hs; auto.
  destruct Hs as [|s sums [Hs1 Hs2] Hs]; auto. destruct sqs as [|q sqs]; auto.
  unfold ireg_side, reg_side in *. cbn [combine map]. rewrite post_internal_eq by auto. f_equal. apply IH; auto.
Qed.

Lemma ireg_split_eq pp lvl prior n_dim l splits : list_ok l -> 0 <= N ->
  ireg_split t pp lvl prior n_dim l splits = reg_split pp lvl prior n_dim (map IZR l) splits.
Proof.
  intros H HN. unfold ireg_split, reg_split. cbv zeta. rewrite map_length.
  set (n := length l).
  assert (C1 : map IZR (removelast (i_cumsum t l)) = removelast (cumsum (map IZR l))).
  { rewrite map_removelast, (i_cumsum_eq l); auto. intros k. apply i_sum_eq. apply list_ok_firstn; auto. }
  assert (Hrl : list_ok (removelast l)).
  { destruct H as [H1 H2]. split; [apply Forall_removelast; auto|]. rewrite length_removelast. lia. }
  assert (C2 : map IZR (i_cumsum t (i_sq t (removelast l))) = cumsum (map (fun y => (y ^ 2)%R) (removelast (map IZR l)))).
  { rewrite (i_cumsum_eq _).
    - f_equal. rewrite i_sq_eq by apply Hrl. rewrite <- map_removelast, !map_map. apply map_ext. intros y. rewrite mult_IZR. ring.
    - intros k. rewrite i_sq_eq by apply Hrl. rewrite firstn_map, <- i_sq_eq by apply (list_ok_firstn _ k Hrl).
      rewrite i_sum_sq_eq, i_sq_eq by (try apply list_ok_firstn; auto; apply (list_ok_firstn _ k Hrl)). auto. }
  assert (Hel : forall s, In s (removelast (i_cumsum t l)) -> exists k, (k < n)%nat /\ s = zsum' (firstn k l)).
  { intros s Hs. assert (E : removelast (i_cumsum t l) = map (fun k => i_sum t (firstn k l)) (seq 1 (n - 1))).
    { unfold i_cumsum. rewrite <- map_removelast. f_equal. fold n. clear. destruct n; auto. rewrite seq_S, removelast_app by discriminate.
      simpl removelast. rewrite app_nil_r. f_equal. lia. }
    rewrite E in Hs. apply in_map_iff in Hs as (k & <- & Hk). apply in_seq in Hk. exists k. split; [lia|].
    apply i_sum_eq, list_ok_firstn; auto. }
  assert (Helq : forall s, In s (i_cumsum t (i_sq t (removelast l))) -> exists k, (k < n)%nat /\ s = zsum' (map (fun y => y * y) (firstn k l))).
  { intros s Hs. unfold i_cumsum in Hs. apply in_map_iff in Hs as (k & <- & Hk). apply in_seq in Hk.
    rewrite i_sq_eq, map_length, length_removelast in Hk by apply Hrl. exists k. fold n in Hk. split; [lia|].
    rewrite i_sq_eq by apply Hrl. rewrite firstn_map, firstn_removelast' by (fold n; lia).
    pose proof (i_sum_sq_eq (firstn k l) (list_ok_firstn _ k H)) as E.
    rewrite i_sq_eq in E by apply (list_ok_firstn _ k H). exact E. }
  assert (Hsuf : forall k, zsum' l - zsum' (firstn k l) = zsum' (skipn k l)).
  { intros k. rewrite <- (firstn_skipn k l) at 1. rewrite zsum_app. lia. }
  assert (Hsk : forall k, list_ok (skipn k l)).
  { intros k. destruct H as [H1 H2]. split; [|rewrite skipn_length; lia].
    apply Forall_forall. intros y Hy. rewrite Forall_forall in H1. apply H1. rewrite <- (firstn_skipn k l). apply in_or_app; auto. }
  assert (C3 : map IZR (map (fun s => wrap (acc t) (i_sum t l - s)) (removelast (i_cumsum t l))) =
               map (fun s => (vsum (map IZR l) - s)%R) (removelast (cumsum (map IZR l)))).
  { rewrite <- C1, !map_map. apply map_ext_in. intros s Hs. destruct (Hel s Hs) as (k & _ & ->).
    rewrite i_sum_eq by auto. rewrite Hsuf. pose proof (i_sum_eq _ (Hsk k)) as E. unfold i_sum in E. rewrite E.
    rewrite <- Hsuf, minus_IZR, <- IZR_zsum. auto. }
  assert (C4 : map IZR (map (fun s => wrap (acc t) (i_sum t (i_sq t l) - s)) (i_cumsum t (i_sq t (removelast l)))) =
               map (fun s => (vsum (map (fun y => (y ^ 2)%R) (map IZR l)) - s)%R) (cumsum (map (fun y => (y ^ 2)%R) (removelast (map IZR l))))).
  { rewrite <- C2, !map_map. apply map_ext_in. intros s Hs. destruct (Helq s Hs) as (k & _ & ->).
    rewrite i_sum_sq_eq by auto.
    assert (E1 : zsum' (map (fun y => y * y) l) - zsum' (map (fun y => y * y) (firstn k l)) = zsum' (map (fun y => y * y) (skipn k l))).
    { rewrite <- (firstn_skipn k l) at 1. rewrite map_app, zsum_app. lia. }
    rewrite E1. pose proof (i_sum_sq_eq _ (Hsk k)) as E. rewrite i_sq_eq in E by apply (Hsk k). unfold i_sum in E. rewrite E.
    rewrite <- E1, minus_IZR, IZR_zsumsq, map_map. auto. }
  assert (CN : map IZR (map Z.of_nat (seq 1 (n - 1))) = map INR (seq 1 (n - 1))).
  { rewrite map_map. apply map_ext. intros k. symmetry. apply INR_IZR_INZ. }
  assert (CN2 : map IZR (map (fun k => Z.of_nat n - k) (map Z.of_nat (seq 1 (n - 1)))) = map (fun k => (INR n - k)%R) (map INR (seq 1 (n - 1)))).
  { rewrite <- CN, !map_map. apply map_ext. intros k. rewrite minus_IZR, <- !INR_IZR_INZ. auto. }
  set (pick := fun (l : list Z) => if Nat.eqb (length splits) (n - 1) then l else map (fun s => nth (s - 1) l 0) splits).
  set (pickR := fun (l : list R) => if Nat.eqb (length splits) (n - 1) then l else map (fun s => nth (s - 1) l 0%R) splits).
  assert (Hpick : forall l, map IZR (pick l) = pickR (map IZR l)).
  { intros l0. unfold pick, pickR. destruct (Nat.eqb _ _); auto. rewrite map_map. apply map_ext. intros s.
    rewrite (map_nth IZR). auto. }
  assert (Hpf : forall (Q : Z -> Prop) l, Q 0 -> Forall Q l -> Forall Q (pick l)).
  { intros Q l0 Q0 Hl0. unfold pick. destruct (Nat.eqb _ _); auto. apply Forall_forall. intros x Hx.
    apply in_map_iff in Hx as (s & <- & _). destruct (nth_in_or_default (s - 1) l0 0) as [Hi| ->]; auto.
    rewrite Forall_forall in Hl0. auto. }
  assert (Hn : Z.of_nat n <= N) by apply H.
  repeat match goal with |- context [if Nat.eqb (length splits) (n - 1) then ?l0 else map (fun s => nth (s - 1) ?l0 0) splits] =>
    change (if Nat.eqb (length splits) (n - 1) then l0 else map (fun s => nth (s - 1) l0 0) splits) with (pick l0) end.
  repeat match goal with |- context [if Nat.eqb (length splits) (n - 1) then ?l0 else map (fun s => nth (s - 1) ?l0 0%R) splits] =>
    change (if Nat.eqb (length splits) (n - 1) then l0 else map (fun s => nth (s - 1) l0 0%R) splits) with (pickR l0) end.
  rewrite !ireg_side_eq.
  - rewrite !Hpick, CN, CN2, C1, C2, C3, C4. reflexivity.
  - apply Hpf; [lia|]. apply Forall_forall. intros x Hx. apply in_map_iff in Hx as (k & <- & Hk).
    apply in_map_iff in Hk as (k' & <- & Hk'). apply in_seq in Hk'. lia.
  - apply Hpf; [split; nia|]. apply Forall_forall. intros x Hx. apply in_map_iff in Hx as (s & <- & Hs).
    destruct (Hel s Hs) as (k & _ & ->). rewrite i_sum_eq, Hsuf by auto.
    pose proof (i_sum_eq _ (Hsk k)) as E. unfold i_sum in E. rewrite E. apply sum_small; auto.
  - apply Hpf; [lia|]. apply Forall_forall. intros x Hx. apply in_map_iff in Hx as (k' & <- & Hk'). apply in_seq in Hk'. lia.
  - apply Hpf; [split; nia|]. apply Forall_forall. intros x Hx. destruct (Hel x Hx) as (k & _ & ->).
    apply sum_small, list_ok_firstn; auto.
Qed.

Lemma many_Z_eq l : many_Z l = many_R (map IZR l).
Proof.
  apply eq_true_iff_eq. rewrite many_R_many. unfold many_Z. destruct l as [|y0 l].
  - split; [discriminate|]. intros (a & b & [] & _).
  - rewrite existsb_exists. split.
    + intros (y & Hy & Hn). apply negb_true_iff, Z.eqb_neq in Hn. exists (IZR y), (IZR y0).
      split; [right; apply in_map; auto|]. split; [left; auto|]. intros E. apply eq_IZR in E. auto.
    + intros (a & b & Ha & Hb & Hn). apply in_map_iff in Ha as (u & <- & Hu). apply in_map_iff in Hb as (v & <- & Hv).
      assert (Huv : u <> v) by (intros ->; auto).
      destruct (Z.eq_dec u y0) as [->|Hu0].
      * destruct Hv as [->|Hv]; [congruence|]. exists v. split; auto. apply negb_true_iff, Z.eqb_neq. auto.
      * destruct Hu as [->|Hu]; [congruence|]. exists u. split; auto. apply negb_true_iff, Z.eqb_neq. auto.
Qed.
End Targets.
