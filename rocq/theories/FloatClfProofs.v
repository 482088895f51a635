(** * FloatClfProofs: posteriors and probabilities of float64 classification (C82). *)
From Coq Require Import Reals Lra Permutation Psatz.
From Flocq Require Import Core BinarySingleNaN.
From Verif Require Import Prelude Lists Tree Perp RealOps Api Spec ApiSpec NodeFacts HyperExec FloatFeat FloatReg FloatClf FloatSum FloatNG FloatClfSum.
Local Open Scope R_scope.

(** Number of rows of [rows] with label [c]. *)
Definition label_count (lab : nat -> nat) (c : nat) (rows : list nat) : nat := length (filter (fun i => Nat.eqb (lab i) c) rows).

Lemma label_count_le lab c l : (label_count lab c l <= length l)%nat.
Proof. unfold label_count. induction l as [|i l IH]; simpl; [lia|]. destruct (Nat.eqb (lab i) c); simpl; lia. Qed.

Lemma f_nat_eqb a b : (Z.of_nat a < 2 ^ 53)%Z -> (Z.of_nat b < 2 ^ 53)%Z -> Beqb (f_nat a) (f_nat b) = Nat.eqb a b.
Proof.
  intros Ha Hb. destruct (int_nat a Ha) as [Fa Ea]. destruct (int_nat b Hb) as [Fb Eb]. rewrite Beqb_correct, Ea, Eb by auto.
  destruct (Nat.eqb_spec a b) as [->|N].
  - apply Req_bool_true. reflexivity.
  - apply Req_bool_false. intros E. apply eq_IZR in E. lia.
Qed.

Lemma map2_len {A B C} (f : A -> B -> C) l : forall m, length l = length m -> length (map2 f l m) = length l.
Proof. induction l as [|a l IH]; intros [|b m] H; simpl in *; auto. Qed.
Lemma map2_nth {A B C} (f : A -> B -> C) l da db dc : forall m j, length l = length m -> (j < length l)%nat -> nth j (map2 f l m) dc = f (nth j l da) (nth j m db).
Proof. induction l as [|a l IH]; intros [|b m] [|j] H Hj; simpl in *; try lia; auto. apply IH; lia. Qed.
Lemma map_seq_nth {B} (f : nat -> B) n c d : (c < n)%nat -> nth c (map f (seq 0 n)) d = f c.
Proof. intros H. rewrite (nth_indep _ d (f 0%nat)) by (rewrite map_length, seq_length; exact H). rewrite map_nth, seq_nth by exact H. reflexivity. Qed.
Lemma map_nth_lt {A B} (f : A -> B) l da db j : (j < length l)%nat -> nth j (map f l) db = f (nth j l da).
Proof. intros H. rewrite (nth_indep _ db (f da)) by (rewrite map_length; exact H). apply map_nth. Qed.
Lemma vsum_nth l : vsum l = vsum (map (fun c => nth c l 0) (seq 0 (length l))).
Proof.
  induction l as [|a l IH]; [reflexivity|]. cbn [length seq map]. rewrite <- seq_shift, map_map. unfold vsum in *. cbn [fold_right nth]. rewrite IH at 1. reflexivity.
Qed.
Lemma vsum_map_le (f g : nat -> R) l : (forall c, In c l -> f c <= g c) -> vsum (map f l) <= vsum (map g l).
Proof.
  induction l as [|a l IH]; intros H; [simpl; lra|]. unfold vsum in *. cbn [map fold_right].
  assert (f a <= g a) by (apply H; left; auto). assert (fold_right Rplus 0 (map f l) <= fold_right Rplus 0 (map g l)) by (apply IH; intros; apply H; right; auto). lra.
Qed.
Lemma vsum_map_scale r (f : nat -> R) l : vsum (map (fun c => r * f c) l) = r * vsum (map f l).
Proof. induction l as [|a l IH]; unfold vsum in *; cbn [map fold_right]; [lra|]. rewrite IH. lra. Qed.
Lemma vsum_map_add (f g : nat -> R) l : vsum (map (fun c => f c + g c) l) = vsum (map f l) + vsum (map g l).
Proof. induction l as [|a l IH]; unfold vsum in *; cbn [map fold_right]; [lra|]. rewrite IH. lra. Qed.
Lemma vsum_map_const r (l : list nat) : vsum (map (fun _ => r) l) = INR (length l) * r.
Proof. induction l as [|a l IH]; [unfold vsum; simpl; lra|]. unfold vsum in *. cbn [map fold_right length]. rewrite IH, S_INR. lra. Qed.

Lemma nth_repeat' {A} (w d : A) n i : (i < n)%nat -> nth i (repeat w n) d = w.
Proof. revert i. induction n as [|n IH]; intros [|i] H; simpl; try lia; auto. apply IH. lia. Qed.

Section Node.
Variables (k : nat) (lab : nat -> nat) (y : nat -> float64) (rows : list nat).
Hypothesis Hk : (Z.of_nat k < 2 ^ 53)%Z.
Hypothesis Hy : forall i, In i rows -> y i = f_nat (lab i) /\ (lab i < k)%nat.

Lemma counts_labels c : (c < k)%nat -> length (filter (fun a => cl64_is a c) (map y rows)) = label_count lab c rows.
Proof.
  intros Hc. unfold label_count. induction rows as [|i l IH]; [reflexivity|]. cbn [map filter].
  destruct (Hy i) as [E Hl]; [left; auto|]. unfold cl64_is at 1. rewrite E, f_nat_eqb by lia.
  specialize (IH (fun j Hj => Hy j (or_intror Hj))). destruct (Nat.eqb (lab i) c); simpl; congruence.
Qed.
Lemma counts_eq : cl64_counts k (map y rows) = map (fun c => label_count lab c rows) (seq 0 k).
Proof. unfold cl64_counts. apply map_ext_in. intros c Hc. apply in_seq in Hc. apply counts_labels. lia. Qed.
Lemma counts_total : vsum (map (fun c => INR (label_count lab c rows)) (seq 0 k)) = INR (length rows).
Proof.
  induction rows as [|i l IH].
  - unfold label_count. simpl. clear. induction (seq 0 k) as [|a s IH]; [reflexivity|]. unfold vsum in *. simpl. lra.
  - specialize (IH (fun j Hj => Hy j (or_intror Hj))). destruct (Hy i) as [_ Hl]; [left; auto|].
    cbn [length]. rewrite S_INR, <- IH. clear IH.
    assert (H : forall s, NoDup s -> vsum (map (fun c => INR (label_count lab c (i :: l))) s) =
      vsum (map (fun c => INR (label_count lab c l)) s) + (if in_dec Nat.eq_dec (lab i) s then 1 else 0)).
    { induction s as [|c s IHs]; intros Hn; [unfold vsum; simpl; lra|]. inversion Hn as [|? ? Hc Hn']; subst. specialize (IHs Hn').
      unfold vsum in *. cbn [map fold_right]. rewrite IHs. unfold label_count at 1. cbn [filter].
      destruct (Nat.eqb_spec (lab i) c) as [E|E].
      - cbn [length]. rewrite S_INR. fold (label_count lab c l). destruct (in_dec Nat.eq_dec (lab i) s) as [J|J]; [subst; contradiction|].
        destruct (in_dec Nat.eq_dec (lab i) (c :: s)) as [_|J']; [lra|]. exfalso. apply J'. left. auto.
      - fold (label_count lab c l). destruct (in_dec Nat.eq_dec (lab i) s) as [J|J]; destruct (in_dec Nat.eq_dec (lab i) (c :: s)) as [J'|J']; try lra; exfalso.
        + apply J'. right. auto.
        + destruct J' as [J'|J']; [congruence|contradiction]. }
    rewrite H by apply seq_NoDup. destruct (in_dec Nat.eq_dec (lab i) (seq 0 k)) as [_|J]; [reflexivity|]. exfalso. apply J, in_seq. lia.
Qed.

Variable prior : list float64.
Hypothesis Hlen : length prior = k.
Hypothesis Hprior : Forall (fun a => nonneg_fin a /\ B2R a <= b2 900) prior.
Hypothesis Hrows : (0 < length rows)%nat /\ (Z.of_nat (length rows) < 2 ^ 53)%Z.
Let post : list float64 := cl64_posterior1 prior (map y rows).
(** The exact posterior. *)
Let exact (c : nat) : R := B2R (nth c prior f_zero) + INR (label_count lab c rows).

Lemma count_le c : (label_count lab c rows <= length rows)%nat.
Proof. apply label_count_le. Qed.

Lemma nth_prior c : (c < k)%nat -> nonneg_fin (nth c prior f_zero) /\ B2R (nth c prior f_zero) <= b2 900.
Proof. intros Hc. rewrite Forall_forall in Hprior. apply Hprior, nth_In. lia. Qed.

Lemma post_length : length post = k.
Proof. unfold post, cl64_posterior1. rewrite map2_len; [exact Hlen|]. unfold cl64_counts. rewrite !map_length, seq_length. reflexivity. Qed.
Lemma post_nth c : (c < k)%nat -> nth c post f_zero = f_add (nth c prior f_zero) (f_nat (label_count lab c rows)).
Proof.
  intros Hc. unfold post, cl64_posterior1. rewrite Hlen, counts_eq.
  rewrite (map2_nth _ _ f_zero f_zero) by (rewrite ?map_length, ?seq_length; lia).
  rewrite map_map. rewrite (map_seq_nth (fun c => f_nat (label_count lab c rows))) by lia. reflexivity.
Qed.
Lemma post_val c : (c < k)%nat -> nonneg_fin (nth c post f_zero) /\ B2R (nth c post f_zero) = RN64 (exact c) /\
  Rabs (B2R (nth c post f_zero) - exact c) <= u53 * exact c /\ 0 <= exact c <= b2 901.
Proof.
  intros Hc. rewrite post_nth by auto. destruct (nth_prior c Hc) as [[Fp Gp] Bp]. pose proof (count_le c) as Hcl.
  destruct (int_nat (label_count lab c rows)) as [Fn En]; [lia|]. rewrite <- INR_IZR_INZ in En.
  assert (Hn : 0 <= INR (label_count lab c rows) <= b2 53).
  { split; [apply pos_INR|]. rewrite INR_IZR_INZ. change (b2 53) with (IZR (2 ^ 53)). apply IZR_le. lia. }
  assert (He : 0 <= exact c <= b2 901).
  { unfold exact. split; [lra|]. change (b2 901) with (b2 (1 + 900)). rewrite bpow_plus. change (b2 1) with 2. pose proof (b2_le 53 900 ltac:(lia)). lra. }
  destruct (add_ok (nth c prior f_zero) (f_nat (label_count lab c rows)) Fp Fn) as [Fa Ea].
  { rewrite En. fold (exact c). rewrite Rabs_pos_eq by lra. eapply Rle_trans; [apply He|apply b2_le; lia]. }
  rewrite En in Ea. fold (exact c) in Ea.
  split; [split; [exact Fa|rewrite Ea; apply RN64_nonneg; lra]|]. split; [exact Ea|]. split; [|exact He].
  rewrite Ea. rewrite <- (Rabs_pos_eq (exact c)) at 3 by lra. unfold exact. rewrite <- En. apply add_rel; apply fmt_B2R.
Qed.

Hypothesis Hk20 : (0 < k)%nat /\ (Z.of_nat k <= 2 ^ 20)%Z.
Let total : R := vsum (vals prior) + INR (length rows).
Lemma exact_total : vsum (map exact (seq 0 k)) = total.
Proof.
  unfold total, exact. rewrite vsum_map_add, counts_total. f_equal. unfold vals. rewrite (vsum_nth (map B2R prior)), map_length, Hlen. f_equal.
  apply map_ext_in. intros c Hc. apply in_seq in Hc. rewrite (map_nth_lt B2R prior f_zero) by lia. reflexivity.
Qed.
Lemma k_small : 1 <= INR k <= 1048576.
Proof. split; [apply (le_INR 1); lia|]. rewrite INR_IZR_INZ. apply IZR_le. lia. Qed.
Lemma total_pos : 1 <= total.
Proof.
  unfold total. assert (0 <= vsum (vals prior)). { apply vsum_nonneg. eapply Forall_impl; [|exact Hprior]. cbv beta. tauto. }
  assert (1 <= INR (length rows)) by (apply (le_INR 1); lia). lra.
Qed.
Lemma post_nonneg : Forall nonneg_fin post.
Proof.
  apply Forall_forall. intros a Ha. apply (In_nth _ _ f_zero) in Ha as (c & Hc & <-). rewrite post_length in Hc. apply (post_val c Hc).
Qed.
Lemma post_sum : total * (1 - u53) <= vsum (vals post) <= total * (1 + u53) /\ vsum (vals post) <= b2 950.
Proof.
  assert (E : vsum (vals post) = vsum (map (fun c => B2R (nth c post f_zero)) (seq 0 k))).
  { unfold vals. rewrite (vsum_nth (map B2R post)), map_length, post_length. f_equal. apply map_ext_in. intros c Hc. apply in_seq in Hc.
    apply map_nth_lt. rewrite post_length. lia. }
  rewrite E, <- exact_total. rewrite !(Rmult_comm (vsum _)), <- !vsum_map_scale. split; [split|]; try (apply vsum_map_le; intros c Hc; apply in_seq in Hc;
    destruct (post_val c) as (_ & _ & R1 & _); [lia|]; apply Rabs_le_inv in R1; lra).
  apply Rle_trans with (vsum (map (fun _ => b2 902) (seq 0 k))).
  - apply vsum_map_le. intros c Hc. apply in_seq in Hc. destruct (post_val c) as (_ & _ & R1 & R2); [lia|]. apply Rabs_le_inv in R1.
    change (b2 902) with (b2 (1 + 901)). rewrite bpow_plus. change (b2 1) with 2. pose proof u53_val. nra.
  - rewrite vsum_map_const, seq_length. pose proof k_small. apply Rle_trans with (b2 20 * b2 902).
    + apply Rmult_le_compat_r; [left; apply b2_pos|]. change (b2 20) with 1048576. lra.
    + rewrite <- bpow_plus. apply b2_le. lia.
Qed.

Variable fsum : list float64 -> float64.
Hypothesis Hsum : forall l, sum_of l (fsum l).
Let p : list float64 := cl64_mean fsum post.

Lemma sum_facts : is_finite (fsum post) = true /\ 0 < B2R (fsum post) /\
  total * (1 - u53) * (1 - INR k * u53) <= B2R (fsum post) <= total * (1 + u53) * (1 + 2 * INR k * u53) /\
  (forall c, (c < k)%nat -> B2R (nth c post f_zero) <= B2R (fsum post)).
Proof.
  destruct post_sum as [[S1 S2] S3]. pose proof k_small as K. pose proof total_pos as T. pose proof u53_val as U.
  destruct (sum_err post (fsum post) (Hsum post) post_nonneg S3) as ([F G] & [B1 B2] & M). { rewrite post_length. change (b2 20) with 1048576. lra. }
  rewrite post_length in B1, B2.
  assert (K1 : 0 < INR k * u53 <= / 4) by (rewrite U; lra).
  assert (L1 : total * (1 - u53) * (1 - INR k * u53) <= B2R (fsum post)).
  { eapply Rle_trans; [|exact B1]. apply Rmult_le_compat_r; lra. }
  assert (0 < total * (1 - u53) * (1 - INR k * u53)) by (repeat apply Rmult_lt_0_compat; lra).
  split; [exact F|]. split; [lra|]. split; [split; [exact L1|]|].
  - eapply Rle_trans; [exact B2|]. apply Rmult_le_compat_r; [lra|exact S2].
  - intros c Hc. rewrite Forall_forall in M. apply M, nth_In. rewrite post_length. exact Hc.
Qed.

Lemma mean_length : length p = k.
Proof. unfold p, cl64_mean. rewrite map_length. apply post_length. Qed.
Lemma mean_nth c : (c < k)%nat -> nth c p f_zero = f_div (nth c post f_zero) (fsum post).
Proof. intros Hc. unfold p, cl64_mean. apply (map_nth_lt (fun a => f_div a (fsum post))). rewrite post_length. exact Hc. Qed.
Lemma mean_val c : (c < k)%nat -> is_finite (nth c p f_zero) = true /\ B2R (nth c p f_zero) = RN64 (B2R (nth c post f_zero) / B2R (fsum post)) /\
  0 <= B2R (nth c post f_zero) / B2R (fsum post) <= 1.
Proof.
  intros Hc. destruct sum_facts as (Fs & Ps & _ & Ms). destruct (post_val c Hc) as ([Fc Gc] & _). specialize (Ms c Hc).
  assert (Q : 0 <= B2R (nth c post f_zero) / B2R (fsum post) <= 1).
  { split; [apply Rmult_le_pos; [exact Gc|]; left; apply Rinv_0_lt_compat; lra|]. apply Rmult_le_reg_r with (B2R (fsum post)); [lra|].
    unfold Rdiv. rewrite Rmult_assoc, Rinv_l by lra. lra. }
  rewrite mean_nth by auto. destruct (div_ok (nth c post f_zero) (fsum post) Fc) as [F E]; [lra| |].
  { rewrite Rabs_pos_eq by lra. apply Rle_trans with (b2 0); [change (b2 0) with 1; lra|apply b2_le; lia]. }
  auto.
Qed.
Lemma mean_range c : (c < k)%nat -> 0 <= B2R (nth c p f_zero) <= 1.
Proof.
  intros Hc. destruct (mean_val c Hc) as (_ & -> & Q). split; [apply RN64_nonneg; lra|].
  rewrite <- (RN64_fmt 1) by (apply (fmt64_int 1); lia). apply RN64_le. lra.
Qed.
Lemma mean_mono c c' : (c < k)%nat -> (c' < k)%nat -> B2R (nth c post f_zero) <= B2R (nth c' post f_zero) -> B2R (nth c p f_zero) <= B2R (nth c' p f_zero).
Proof.
  intros Hc Hc' H. destruct (mean_val c Hc) as (_ & -> & _). destruct (mean_val c' Hc') as (_ & -> & _). apply RN64_le.
  destruct sum_facts as (_ & Ps & _). apply Rmult_le_compat_r; [left; apply Rinv_0_lt_compat; lra|exact H].
Qed.
Lemma mean_err c : (c < k)%nat -> Rabs (B2R (nth c p f_zero) - exact c / total) <= (INR k + 3) * b2 (-52).
Proof.
  intros Hc. destruct (mean_val c Hc) as (_ & -> & Q). destruct sum_facts as (_ & Ps & [S1 S2] & _). destruct (post_val c Hc) as ([_ Gc] & _ & R1 & [E0 _]).
  pose proof k_small as [K1 K2]. pose proof total_pos as T.
  set (x := exact c) in *. set (a := B2R (nth c post f_zero)) in *. set (s := B2R (fsum post)) in *. apply Rabs_le_inv in R1.
  pose proof (RN64_err (a / s)) as R2. rewrite (Rabs_pos_eq (a / s)) in R2 by lra. apply Rabs_le_inv in R2.
  assert (E1 : x <= total).
  { rewrite <- exact_total. unfold x. assert (Hi : In c (seq 0 k)) by (apply in_seq; lia).
    assert (Hp : forall l, (forall i, In i l -> (i < k)%nat) -> 0 <= vsum (map exact l)).
    { induction l as [|b l IH]; intros Hl; [unfold vsum; simpl; lra|]. unfold vsum in *. cbn [map fold_right].
      destruct (post_val b) as (_ & _ & _ & [B0 _]); [apply Hl; left; auto|]. assert (0 <= fold_right Rplus 0 (map exact l)) by (apply IH; intros; apply Hl; right; auto). lra. }
    apply in_split in Hi as (l1 & l2 & E). rewrite E. rewrite map_app, vsum_app'. cbn [map]. unfold vsum at 2. cbn [fold_right]. fold (vsum (map exact l2)).
    assert (H1 : 0 <= vsum (map exact l1)) by (apply Hp; intros i Hi; assert (In i (seq 0 k)) by (rewrite E; apply in_or_app; auto); apply in_seq in H; lia).
    assert (H2 : 0 <= vsum (map exact l2)) by (apply Hp; intros i Hi; assert (In i (seq 0 k)) by (rewrite E; apply in_or_app; right; right; auto); apply in_seq in H; lia).
    lra. }
  set (e := x / total). assert (Ee : x = e * total) by (unfold e; field; lra).
  assert (He : 0 <= e <= 1). { split; [unfold e; apply Rmult_le_pos; [lra|]; left; apply Rinv_0_lt_compat; lra|]. apply Rmult_le_reg_r with total; lra. }
  set (r := a / s) in *. assert (Er : a = r * s) by (unfold r; field; lra).
  set (K := INR k) in *. set (u := u53) in *. assert (Uv : u = / 9007199254740992) by (exact u53_val).
  assert (EU : b2 (-52) = 2 * u). { unfold u, u53. change (b2 (-52)) with (b2 (1 + -53)). rewrite bpow_plus. reflexivity. }
  assert (tiny : 0 < b2 (-1075) <= u). { split; [apply b2_pos|]. apply b2_le. lia. }
  assert (Ku : 0 <= K * u <= / 4294967296) by (rewrite Uv; split; nra).
  assert (KKu : K * (K * u) <= / 4096 * K) by (rewrite Uv; nra).
  (* upper bound of the exact quotient *)
  assert (U1 : r * ((1 - u) * (1 - K * u)) <= e * (1 + u)).
  { apply Rmult_le_reg_r with total; [lra|]. apply Rle_trans with (r * s); [|rewrite <- Er; nra].
    replace (r * ((1 - u) * (1 - K * u)) * total) with (r * (total * (1 - u) * (1 - K * u))) by ring. apply Rmult_le_compat_l; lra. }
  assert (L1 : e * (1 - u) <= r * ((1 + u) * (1 + 2 * K * u))).
  { apply Rmult_le_reg_r with total; [lra|]. apply Rle_trans with (r * s); [rewrite <- Er; nra|].
    replace (r * ((1 + u) * (1 + 2 * K * u)) * total) with (r * (total * (1 + u) * (1 + 2 * K * u))) by ring. apply Rmult_le_compat_l; lra. }
  assert (U2 : r <= e + (2 * K + 3) * u).
  { apply Rmult_le_reg_r with ((1 - u) * (1 - K * u)); [apply Rmult_lt_0_compat; rewrite Uv in *; lra|]. eapply Rle_trans; [exact U1|].
    assert (D : (1 - u) * (1 - K * u) >= 1 - (K + 1) * u) by nra.
    apply Rle_trans with ((e + (2 * K + 3) * u) * (1 - (K + 1) * u)).
    - assert (Z : (2 * K + 3) * ((K + 1) * u) <= K) by (rewrite Uv in *; nra). 
      assert (e * ((K + 1) * u) <= (K + 1) * u) by nra. assert (e * u <= u) by nra.
      replace ((e + (2 * K + 3) * u) * (1 - (K + 1) * u)) with (e - e * ((K + 1) * u) + (2 * K + 3) * u - u * ((2 * K + 3) * ((K + 1) * u))) by ring.
      assert (u * ((2 * K + 3) * ((K + 1) * u)) <= u * K) by (apply Rmult_le_compat_l; [rewrite Uv; lra|exact Z]). lra.
    - apply Rmult_le_compat_l; [|lra]. assert (0 <= (2 * K + 3) * u) by (apply Rmult_le_pos; [lra|rewrite Uv; lra]). lra. }
  assert (L2 : e - (2 * K + 3) * u <= r).
  { apply Rmult_le_reg_r with ((1 + u) * (1 + 2 * K * u)); [apply Rmult_lt_0_compat; rewrite Uv in *; lra|]. eapply Rle_trans; [|exact L1].
    assert (D : 1 + (2 * K + 1) * u <= (1 + u) * (1 + 2 * K * u) <= 1 + (2 * K + 2) * u) by (split; [nra|]; rewrite Uv in *; nra).
    assert (0 <= u) by (rewrite Uv; lra). assert (0 <= (2 * K + 3) * u) by nra.
    set (D0 := (1 + u) * (1 + 2 * K * u)) in *. assert (e * D0 <= e * (1 + (2 * K + 2) * u)) by (apply Rmult_le_compat_l; lra).
    assert ((2 * K + 3) * u <= (2 * K + 3) * u * D0) by nra. assert (e * ((2 * K + 2) * u) <= (2 * K + 2) * u) by nra. assert (e * u <= u) by nra. lra. }
  rewrite EU. apply Rabs_le. assert (u * r <= u) by (rewrite Uv; lra). fold e. split; lra.
Qed.

(** The predicted class. *)
Lemma finite_argmax l : Forall nonneg_fin l -> f_argmax l = argmax Rgtb (vals l).
Proof.
  intros H. unfold f_argmax, vals. symmetry. apply (argmax_map _ Rgtb B2R nonneg_fin l H). intros a b [Fa _] [Fb _].
  assert (Na : forall x : float64, is_finite x = true -> is_nan x = false) by (intros [| | |]; auto; discriminate).
  rewrite (Na a Fa). cbn [andb orb]. rewrite Bltb_correct by auto.
  destruct (Rlt_bool_spec (B2R b) (B2R a)) as [Hl|Hl].
  - unfold Rgtb, Rltb. destruct Rlt_dec; [reflexivity|lra].
  - unfold Rgtb, Rltb. destruct Rlt_dec; [lra|reflexivity].
Qed.
Lemma predicted_max : let c := cl64_predict_leaf post in (c < k)%nat /\
  forall j, (j < k)%nat -> B2R (nth j post f_zero) <= B2R (nth c post f_zero) /\ (B2R (nth j post f_zero) = B2R (nth c post f_zero) -> (c <= j)%nat).
Proof.
  unfold cl64_predict_leaf. rewrite finite_argmax by exact post_nonneg.
  assert (Hne : vals post <> []) by (intros E; apply f_equal with (f := @length R) in E; unfold vals in E; rewrite map_length, post_length in E; simpl in E; lia).
  destruct (argmax_R (vals post) Hne) as [H1 H2]. unfold vals in *. rewrite map_length, post_length in H1, H2. split; [exact H1|].
  intros j Hj. specialize (H2 j Hj). rewrite !(map_nth_lt B2R post f_zero 0) in H2 by (rewrite post_length; auto). exact H2.
Qed.
Lemma predicted_near : let c := cl64_predict_leaf post in forall j, (j < k)%nat ->
  B2R (nth j p f_zero) <= B2R (nth c p f_zero) /\ exact j <= exact c * (1 + b2 (-51)).
Proof.
  intros c j Hj. destruct predicted_max as [Hc H]. fold c in Hc, H. destruct (H j Hj) as [H1 _]. split; [apply mean_mono; auto|].
  destruct (post_val j Hj) as (_ & _ & R1 & [E1 _]). destruct (post_val c Hc) as (_ & _ & R2 & [E2 _]). apply Rabs_le_inv in R1. apply Rabs_le_inv in R2.
  change (b2 (-51)) with (b2 (2 + -53)). rewrite bpow_plus. change (b2 2) with 4. change (b2 (-53)) with u53. rewrite u53_val in *. nra.
Qed.
Lemma predicted_majority w : prior = repeat w k -> B2R w <= b2 50 -> (Z.of_nat (length rows) <= 2 ^ 50)%Z ->
  let c := cl64_predict_leaf post in (c < k)%nat /\ forall j, (j < k)%nat ->
  (label_count lab j rows <= label_count lab c rows)%nat /\ (label_count lab j rows = label_count lab c rows -> (c <= j)%nat).
Proof.
  intros Ep Hw Hn c. destruct predicted_max as [Hc H]. fold c in Hc, H. split; [exact Hc|]. intros j Hj. destruct (H j Hj) as [H1 H2].
  assert (Hr : forall i, (i < k)%nat -> nth i prior f_zero = w) by (intros i Hi; rewrite Ep; apply nth_repeat'; exact Hi).
  assert (He : forall i, (i < k)%nat -> exact i = B2R w + INR (label_count lab i rows)) by (intros i Hi; unfold exact; rewrite Hr by auto; reflexivity).
  destruct (post_val j Hj) as (_ & V1 & R1 & [E1 _]). destruct (post_val c Hc) as (_ & V2 & R2 & [E2 _]). apply Rabs_le_inv in R1. apply Rabs_le_inv in R2.
  assert (Hb : forall i, (i < k)%nat -> u53 * exact i <= / 4).
  { intros i Hi. rewrite He by auto. assert (INR (label_count lab i rows) <= b2 50).
    { rewrite INR_IZR_INZ. change (b2 50) with (IZR (2 ^ 50)). apply IZR_le. pose proof (count_le i). lia. }
    rewrite u53_val. change (b2 50) with 1125899906842624 in *. lra. }
  pose proof (Hb j Hj). pose proof (Hb c Hc). split.
  - destruct (le_lt_dec (label_count lab j rows) (label_count lab c rows)) as [L|L]; [exact L|]. exfalso.
    apply le_INR in L. rewrite S_INR in L. rewrite (He j Hj), (He c Hc) in *. lra.
  - intros E. apply H2. rewrite V1, V2, (He j Hj), (He c Hc), E. reflexivity.
Qed.
End Node.
