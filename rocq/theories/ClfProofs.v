(** * ClfProofs: the classification arithmetic implements ClfSpec. *)
From Coq Require Import Permutation Sorted.
From Verif Require Import Prelude Lists Perp Gamma RealOps Clf OptSpec OptProofs ClfSpec.

(** ** Booleans *)
Lemma Rltb_true a b : Rltb a b = true <-> a < b.
Proof. unfold Rltb. destruct (Rlt_dec a b); split; intros; auto; try discriminate; contradiction. Qed.
Lemma Rltb_false a b : Rltb a b = false <-> b <= a.
Proof. unfold Rltb. destruct (Rlt_dec a b); split; intros; auto; try discriminate; lra. Qed.
Lemma Rleb_true a b : Rleb a b = true <-> a <= b.
Proof. unfold Rleb. destruct (Rle_dec a b); split; intros; auto; try discriminate; contradiction. Qed.
Lemma Rleb_false a b : Rleb a b = false <-> b < a.
Proof. unfold Rleb. destruct (Rle_dec a b); split; intros; auto; try discriminate; lra. Qed.
Lemma Reqb_true a b : Reqb a b = true <-> a = b.
Proof. unfold Reqb. destruct (Req_EM_T a b); split; intros; auto; try discriminate; contradiction. Qed.
Lemma Reqb_false a b : Reqb a b = false <-> a <> b.
Proof. unfold Reqb. destruct (Req_EM_T a b); split; intros; auto; try discriminate; contradiction. Qed.
Lemma Rgtb_true a b : Rgtb a b = true <-> a > b.
Proof. apply Rltb_true. Qed.
Lemma Rgtb_false a b : Rgtb a b = false <-> a <= b.
Proof. apply Rltb_false. Qed.
Lemma Rgeb_true a b : Rgeb a b = true <-> a >= b.
Proof. unfold Rgeb. rewrite Rleb_true. lra. Qed.
Lemma Rgeb_false a b : Rgeb a b = false <-> a < b.
Proof. unfold Rgeb. apply Rleb_false. Qed.

Lemma Rgtb_irrefl a : Rgtb a a = false.
Proof. apply Rgtb_false; lra. Qed.
Lemma Rgtb_trans a b c : Rgtb a b = true -> Rgtb b c = true -> Rgtb a c = true.
Proof. rewrite !Rgtb_true. lra. Qed.
Lemma Rgtb_ntrans a b c : Rgtb a b = false -> Rgtb b c = false -> Rgtb a c = false.
Proof. rewrite !Rgtb_false. lra. Qed.

(** ** Feature side over exact reals *)
Definition gap_R (prec : R) (a b : R) : bool := Rgtb (b - a) prec.
Definition mid_R (a b : R) : R := (a + b) / 2.

Lemma R_order : order_law Rleb.
Proof.
  constructor.
  - intros a. apply Rleb_true; lra.
  - intros a b c. rewrite !Rleb_true. lra.
  - intros a b. rewrite !Rleb_true. lra.
  - intros a b. rewrite !Rleb_true. lra.
Qed.

Lemma feat_R_law prec srt : 0 <= prec -> sorts Rleb srt ->
  feat_law (feat_R prec srt) Rleb (gap_R prec) mid_R.
Proof.
  intros Hp Hs. constructor.
  - apply R_order.
  - exact Hs.
  - intros a b Hab. apply Rleb_true in Hab. simpl. unfold gap_R. rewrite Rabs_right by lra. auto.
  - intros a b _ _. simpl. unfold mid_R. lra.
  - intros a b _ Hg. unfold gap_R in Hg. apply Rgtb_true in Hg. apply Rleb_false. lra.
Qed.

Lemma feat_R_route prec srt : 0 <= prec -> route_law (feat_R prec srt) Rleb (gap_R prec) mid_R.
Proof.
  intros Hp a b x Hab Hg. apply Rleb_true in Hab. unfold gap_R in Hg. apply Rgtb_true in Hg.
  simpl. unfold mid_R. rewrite !Rleb_true. split; intros Hx.
  - rewrite Rltb_true, Rgeb_false. lra.
  - rewrite Rltb_false, Rgeb_true. lra.
Qed.

Lemma ln_div a b : 0 < a -> 0 < b -> ln (a / b) = ln a - ln b.
Proof.
  intros Ha Hb. unfold Rdiv. rewrite ln_mult, ln_Rinv; auto. apply Rinv_0_lt_compat; auto.
Qed.

(** ** Sums *)
Lemma vsum_app a b : vsum (a ++ b) = vsum a + vsum b.
Proof. induction a as [|x a IH]; simpl; [lra|]. unfold vsum in *. rewrite IH. lra. Qed.
Lemma vsum_cons x a : vsum (x :: a) = x + vsum a.
Proof. reflexivity. Qed.
Lemma vsum_perm a b : Permutation a b -> vsum a = vsum b.
Proof. induction 1; simpl in *; unfold vsum in *; simpl; lra. Qed.
Lemma vsum_pos l : Forall (fun a => 0 < a) l -> l <> [] -> 0 < vsum l.
Proof.
  induction l as [|x l IH]; [congruence|]. intros H _. inversion H; subst. rewrite vsum_cons.
  destruct l as [|z l]; [simpl; lra|]. assert (0 < vsum (z :: l)) by (apply IH; auto; discriminate). lra.
Qed.
Lemma vsum_nonneg l : Forall (fun a => 0 < a) l -> 0 <= vsum l.
Proof. induction 1; simpl; unfold vsum in *; lra. Qed.

(** ** Labels *)
Lemma label_INR c : label (INR c) = c.
Proof. unfold label. rewrite Int_part_INR, Nat2Z.id. auto. Qed.

Lemma is_class_label k y c : clf_yok k y -> is_class y c = Nat.eqb (label y) c.
Proof.
  intros (c' & Hc & ->). rewrite label_INR. unfold is_class. destruct (Nat.eqb_spec c' c) as [->|Hn].
  - apply Reqb_true. auto.
  - apply Reqb_false. intros E. apply Hn. apply INR_eq. auto.
Qed.

Lemma filter_ext_Forall {B} (Q : B -> Prop) (f g : B -> bool) l :
  Forall Q l -> (forall x, Q x -> f x = g x) -> filter f l = filter g l.
Proof. intros H E. induction H; simpl; auto. rewrite E, IHForall; auto. Qed.

Lemma count_class_label k ys c : Forall (clf_yok k) ys -> count_class ys c = INR (count_label c ys).
Proof.
  intros H. unfold count_class, count_label. f_equal. f_equal.
  eapply filter_ext_Forall; [exact H|]. intros y Hy. eapply is_class_label; eauto.
Qed.

Lemma count_label_app c a b : count_label c (a ++ b) = (count_label c a + count_label c b)%nat.
Proof. unfold count_label. rewrite filter_app, app_length. auto. Qed.
Lemma count_label_perm c a b : Permutation a b -> count_label c a = count_label c b.
Proof. intros H. unfold count_label. apply Permutation_length. apply Permutation_filter; auto. Qed.
Lemma count_label_cons c x a : count_label c (x :: a) = ((if Nat.eqb (label x) c then 1 else 0) + count_label c a)%nat.
Proof. unfold count_label. simpl. destruct (Nat.eqb (label x) c); auto. Qed.

(** ** Sequential probability *)
Lemma predictive_before_perm prior b b' y : Permutation b b' -> predictive prior b y = predictive prior b' y.
Proof.
  intros H. unfold predictive. rewrite (count_label_perm _ _ _ H), (Permutation_length H). auto.
Qed.
Lemma seq_prob_before_perm prior ys : forall b b', Permutation b b' -> seq_prob prior b ys = seq_prob prior b' ys.
Proof.
  induction ys as [|y ys IH]; intros b b' H; simpl; auto.
  rewrite (predictive_before_perm prior b b' y H). f_equal. apply IH. apply Permutation_app; auto.
Qed.

Lemma predictive_swap prior b x y :
  predictive prior b x * predictive prior (b ++ [x]) y = predictive prior b y * predictive prior (b ++ [y]) x.
Proof.
  unfold predictive. rewrite !count_label_app, !app_length, !count_label_cons. simpl length.
  unfold count_label at 3 6. simpl.
  destruct (Nat.eqb_spec (label x) (label y)) as [E|E].
  - rewrite E, Nat.eqb_refl. auto.
  - rewrite (proj2 (Nat.eqb_neq _ _) (not_eq_sym E)). rewrite !Nat.add_0_r. unfold Rdiv. ring.
Qed.

Lemma seq_prob_perm prior ys ys' : Permutation ys ys' -> forall b, seq_prob prior b ys = seq_prob prior b ys'.
Proof.
  induction 1 as [|x l l' H IH|x y l|l l' l'' H IH H' IH']; intros b; simpl.
  - auto.
  - rewrite IH; auto.
  - rewrite <- !Rmult_assoc. rewrite predictive_swap. f_equal.
    apply seq_prob_before_perm. rewrite <- !app_assoc. simpl.
    apply Permutation_app_head. constructor.
  - rewrite IH; auto.
Qed.

Lemma dm_prob_perm prior ys ys' : Permutation ys ys' -> dm_prob prior ys = dm_prob prior ys'.
Proof. intros H. apply seq_prob_perm; auto. Qed.

Lemma seq_prob_app prior ys zs : forall b,
  seq_prob prior b (ys ++ zs) = seq_prob prior b ys * seq_prob prior (b ++ ys) zs.
Proof.
  induction ys as [|y ys IH]; intros b; simpl.
  - rewrite app_nil_r. lra.
  - rewrite IH, <- app_assoc. simpl. ring.
Qed.

Lemma nth_label_pos k prior y : clf_pok k prior -> clf_yok k y -> 0 < nth (label y) prior 0.
Proof.
  intros [Hl Hp] (c & Hc & ->). rewrite label_INR. rewrite Forall_forall in Hp. apply Hp.
  apply nth_In. lia.
Qed.

Lemma predictive_pos k prior b y : clf_pok k prior -> clf_yok k y -> 0 < predictive prior b y.
Proof.
  intros Hk Hy. pose proof (nth_label_pos k prior y Hk Hy) as H. destruct Hk as [Hl Hp].
  assert (0 < vsum prior). { apply vsum_pos; auto. destruct Hy as (c & Hc & _). destruct prior; simpl in *; [lia|congruence]. }
  unfold predictive. pose proof (pos_INR (count_label (label y) b)). pose proof (pos_INR (length b)).
  apply Rdiv_lt_0_compat; lra.
Qed.

Lemma seq_prob_pos k prior ys : clf_pok k prior -> Forall (clf_yok k) ys -> forall b, 0 < seq_prob prior b ys.
Proof.
  intros Hk. induction 1 as [|y ys Hy H IH]; intros b; simpl; [lra|].
  apply Rmult_lt_0_compat; auto. eapply predictive_pos; eauto.
Qed.
Lemma dm_prob_pos k prior ys : clf_pok k prior -> Forall (clf_yok k) ys -> 0 < dm_prob prior ys.
Proof. intros. eapply seq_prob_pos; eauto. Qed.

(** ** The Dirichlet-multinomial closed form *)
Lemma multivariate_betaln_eq alphas :
  multivariate_betaln alphas = vsum (map gammaln alphas) - gammaln (vsum alphas).
Proof.
  unfold multivariate_betaln. destruct alphas as [|a [|b [|c l]]]; auto.
  unfold betaln, vsum. simpl. rewrite !Rplus_0_r. auto.
Qed.

(** Adding one observation of class [c] to a pseudo-count vector. *)
Fixpoint bump (c : nat) (l : list R) : list R :=
  match l, c with
  | [], _ => []
  | a :: l', 0%nat => (a + 1) :: l'
  | a :: l', Datatypes.S c' => a :: bump c' l'
  end.

Lemma bump_sum c l : (c < length l)%nat -> vsum (bump c l) = vsum l + 1.
Proof.
  revert c; induction l as [|a l IH]; intros c Hc; simpl in *; [lia|].
  destruct c; simpl; unfold vsum in *; [lra|]. simpl. rewrite IH by lia. lra.
Qed.
Lemma bump_gamma c l : (c < length l)%nat -> Forall (fun a => 0 < a) l ->
  vsum (map gammaln (bump c l)) = vsum (map gammaln l) + ln (nth c l 0).
Proof.
  revert c; induction l as [|a l IH]; intros c Hc Hp; simpl in *; [lia|]. inversion Hp; subst.
  destruct c; simpl; unfold vsum in *; simpl.
  - rewrite gammaln_succ by auto. lra.
  - rewrite IH by (auto; lia). lra.
Qed.

Lemma betaln_bump c l : (c < length l)%nat -> Forall (fun a => 0 < a) l ->
  multivariate_betaln (bump c l) = multivariate_betaln l + ln (nth c l 0) - ln (vsum l).
Proof.
  intros Hc Hp. rewrite !multivariate_betaln_eq, bump_gamma, bump_sum by auto.
  rewrite gammaln_succ; [lra|]. apply vsum_pos; auto. destruct l; simpl in *; [lia|congruence].
Qed.

Definition add_n (prior : list R) (ys : list R) : list R := add_counts 1 prior ys.

Lemma nth_map_seq {B} (f : nat -> B) n c d : (c < n)%nat -> nth c (map f (seq 0 n)) d = f c.
Proof.
  intros H. rewrite nth_indep with (d' := f 0%nat) by (rewrite map_length, seq_length; auto).
  rewrite map_nth, seq_nth; auto.
Qed.

Lemma map_seq_nth (l : list R) : map (fun c => nth c l 0) (seq 0 (length l)) = l.
Proof.
  apply nth_error_ext. intros i. rewrite nth_error_map, nth_error_seq.
  destruct (Nat.ltb_spec i (length l)) as [H|H]; simpl.
  - symmetry. apply nth_error_nth'. auto.
  - symmetry. apply nth_error_None. auto.
Qed.

Lemma bump_nth c l i : nth i (bump c l) 0 = if Nat.eqb i c && Nat.ltb i (length l) then nth i l 0 + 1 else nth i l 0.
Proof.
  revert c i; induction l as [|a l IH]; intros c i.
  - simpl bump. replace (Nat.ltb i (length (@nil R))) with false by (symmetry; apply Nat.ltb_ge; simpl; lia).
    rewrite andb_false_r. destruct c; auto.
  - destruct c, i; simpl bump; cbn [nth length]; auto.
    + rewrite IH. reflexivity.
Qed.
Lemma bump_length c l : length (bump c l) = length l.
Proof. revert c; induction l as [|a l IH]; intros [|c]; simpl; auto. Qed.

Lemma add_counts_length w p ys : length (add_counts w p ys) = length p.
Proof. unfold add_counts. rewrite map_length, seq_length. auto. Qed.

Lemma add_counts_nth w p ys c : (c < length p)%nat -> nth c (add_counts w p ys) 0 = nth c p 0 + w * INR (count_label c ys).
Proof. intros H. unfold add_counts. rewrite nth_map_seq by auto. auto. Qed.

Lemma list_nth_ext (a b : list R) : length a = length b -> (forall i, (i < length a)%nat -> nth i a 0 = nth i b 0) -> a = b.
Proof. intros H1 H2. apply (nth_ext a b 0 0); auto. Qed.

Lemma add_counts_snoc p ys y : add_counts 1 p (ys ++ [y]) = bump (label y) (add_counts 1 p ys).
Proof.
  apply list_nth_ext.
  - rewrite bump_length, !add_counts_length. auto.
  - intros i Hi. rewrite add_counts_length in Hi.
    rewrite bump_nth, add_counts_length, !add_counts_nth by auto.
    rewrite count_label_app, count_label_cons. unfold count_label at 2. simpl.
    rewrite (proj2 (Nat.ltb_lt _ _) Hi), andb_true_r. rewrite (Nat.eqb_sym i).
    rewrite plus_INR. destruct (Nat.eqb (label y) i); simpl; lra.
Qed.

Lemma add_counts_pos k w p ys : 0 <= w -> clf_pok k p -> clf_pok k (add_counts w p ys).
Proof.
  intros Hw [Hl Hp]. split; [rewrite add_counts_length; auto|].
  rewrite Forall_forall in *. intros a Ha. unfold add_counts in Ha. apply in_map_iff in Ha as (c & <- & Hc).
  apply in_seq in Hc. assert (0 < nth c p 0) by (apply Hp, nth_In; lia).
  pose proof (pos_INR (count_label c ys)). assert (0 <= w * INR (count_label c ys)) by (apply Rmult_le_pos; auto). lra.
Qed.

Lemma vsum_map_plus (f g : nat -> R) l : vsum (map (fun c => f c + g c) l) = vsum (map f l) + vsum (map g l).
Proof. induction l; simpl; unfold vsum in *; simpl; lra. Qed.
Lemma vsum_map_scale w (g : nat -> R) l : vsum (map (fun c => w * g c) l) = w * vsum (map g l).
Proof. induction l; simpl; unfold vsum in *; simpl; lra. Qed.

Lemma counts_total k ys : Forall (clf_yok k) ys ->
  vsum (map (fun c => INR (count_label c ys)) (seq 0 k)) = INR (length ys).
Proof.
  induction 1 as [|y ys Hy H IH].
  - simpl. induction (seq 0 k); simpl; unfold vsum in *; simpl; lra.
  - destruct Hy as (c0 & Hc0 & ->).
    transitivity (vsum (map (fun c => (if Nat.eqb c0 c then 1 else 0) + INR (count_label c ys)) (seq 0 k))).
    + f_equal. apply map_ext. intros c. rewrite count_label_cons, label_INR, plus_INR.
      destruct (Nat.eqb c0 c); auto.
    + rewrite vsum_map_plus, IH. cbn [length]. rewrite S_INR. rewrite Rplus_comm. f_equal.
      assert (Hs : forall s n, vsum (map (fun c => if Nat.eqb c0 c then 1 else 0) (seq s n)) =
                   if (Nat.leb s c0 && Nat.ltb c0 (s + n))%bool then 1 else 0).
      { intros s n; revert s. induction n as [|n IHn]; intros s; simpl.
        - destruct (Nat.leb_spec s c0), (Nat.ltb_spec c0 (s + 0)); simpl; auto; lia.
        - unfold vsum in *. simpl. rewrite IHn. destruct (Nat.eqb_spec c0 s).
          + subst. destruct (Nat.leb_spec (Datatypes.S s) s); [lia|].
            destruct (Nat.leb_spec s s); [|lia]. destruct (Nat.ltb_spec s (s + Datatypes.S n)); [|lia]. simpl. lra.
          + destruct (Nat.leb_spec (Datatypes.S s) c0), (Nat.leb_spec s c0), (Nat.ltb_spec c0 (Datatypes.S s + n)),
              (Nat.ltb_spec c0 (s + Datatypes.S n)); simpl; try lia; lra. }
      rewrite Hs. simpl. destruct (Nat.ltb_spec c0 k); auto. lia.
Qed.

Lemma add_counts_sum k w p ys : length p = k -> Forall (clf_yok k) ys ->
  vsum (add_counts w p ys) = vsum p + w * INR (length ys).
Proof.
  intros Hl Hy. unfold add_counts. rewrite vsum_map_plus, vsum_map_scale, map_seq_nth, Hl, counts_total; auto.
Qed.

Lemma add_counts_nil w p : add_counts w p [] = p.
Proof.
  transitivity (map (fun c => nth c p 0) (seq 0 (length p))); [|apply map_seq_nth]. unfold add_counts. apply map_ext. intros c. unfold count_label. simpl. lra.
Qed.

(** Closed form = sequential probability. *)
Lemma betaln_seq k p ys : clf_pok k p -> Forall (clf_yok k) ys -> forall b, Forall (clf_yok k) b ->
  multivariate_betaln (add_counts 1 p (b ++ ys)) - multivariate_betaln (add_counts 1 p b) = ln (seq_prob p b ys).
Proof.
  intros Hk. induction 1 as [|y ys Hy H IH]; intros b Hb; simpl.
  - rewrite app_nil_r, ln_1. lra.
  - rewrite ln_mult; [|eapply predictive_pos; eauto|eapply seq_prob_pos; eauto].
    rewrite <- IH by (apply Forall_app; auto).
    replace (b ++ y :: ys) with ((b ++ [y]) ++ ys) by (rewrite <- app_assoc; auto).
    rewrite (add_counts_snoc p b y).
    pose proof (add_counts_pos k 1 p b ltac:(lra) Hk) as [Hl1 Hp1].
    destruct Hy as (c & Hc & ->). rewrite label_INR.
    rewrite betaln_bump; auto; [|lia].
    assert (Hlp : length p = k) by apply Hk.
    unfold predictive. rewrite label_INR.
    rewrite add_counts_nth by lia. rewrite (add_counts_sum k) by (auto; lia).
    rewrite !Rmult_1_l. rewrite ln_div; [lra| |].
    + pose proof (pos_INR (count_label c b)). assert (0 < nth c p 0).
      { destruct Hk as [_ Hp]. rewrite Forall_forall in Hp. apply Hp, nth_In. lia. } lra.
    + pose proof (pos_INR (length b)). assert (0 < vsum p).
      { apply vsum_pos; [apply Hk|]. destruct p; simpl in *; [lia|congruence]. } lra.
Qed.

Lemma betaln_dm k p ys : clf_pok k p -> Forall (clf_yok k) ys ->
  multivariate_betaln (add_counts 1 p ys) - multivariate_betaln p = ln (dm_prob p ys).
Proof.
  intros Hk Hy. pose proof (betaln_seq k p ys Hk Hy [] ltac:(constructor)) as H.
  simpl in H. rewrite add_counts_nil in H. exact H.
Qed.

(** ** Code-level posteriors *)
Lemma map2_map_r {A0 B C D} (f : A0 -> C -> D) (g : B -> C) l m : map2 f l (map g m) = map2 (fun a b => f a (g b)) l m.
Proof. revert m; induction l as [|a l IH]; intros [|b m]; simpl; auto. rewrite IH; auto. Qed.
Lemma map2_seq_gen (f : R -> nat -> R) l : forall s,
  map2 f l (seq s (length l)) = map (fun c => f (nth (c - s) l 0) c) (seq s (length l)).
Proof.
  induction l as [|a l IH]; intros s; simpl; auto. rewrite Nat.sub_diag. f_equal.
  rewrite IH. apply map_ext_in. intros c Hc. apply in_seq in Hc.
  replace (c - s)%nat with (Datatypes.S (c - Datatypes.S s)) by lia. auto.
Qed.
Lemma map2_seq (f : R -> nat -> R) l :
  map2 f l (seq 0 (length l)) = map (fun c => f (nth c l 0) c) (seq 0 (length l)).
Proof. rewrite map2_seq_gen. apply map_ext. intros c. rewrite Nat.sub_0_r. auto. Qed.

Lemma clf_posterior_add k delta p ys : clf_pok k p -> Forall (clf_yok k) ys ->
  clf_posterior delta p ys = add_counts delta p ys.
Proof.
  intros Hk Hy. unfold clf_posterior. destruct (Reqb delta 0) eqn:E.
  - apply Reqb_true in E. subst. unfold add_counts. rewrite <- (map_seq_nth p) at 1.
    apply map_ext. intros; lra.
  - unfold class_counts. rewrite map_map, map2_map_r, map2_seq. unfold add_counts. apply map_ext. intros c.
    rewrite (count_class_label k); auto.
Qed.

(** ** Cumulative sums *)
Lemma cumsum_from_length acc l : length (cumsum_from acc l) = length l.
Proof. revert acc; induction l; intros; simpl; auto. Qed.
Lemma cumsum_from_nth l : forall acc i, (i < length l)%nat ->
  nth i (cumsum_from acc l) 0 = acc + vsum (firstn (Datatypes.S i) l).
Proof.
  induction l as [|x l IH]; intros acc i Hi; simpl in Hi; [lia|].
  destruct i; simpl.
  - lra.
  - rewrite IH by lia. simpl. lra.
Qed.
Lemma cumsum_nth l i : (i < length l)%nat -> nth i (cumsum l) 0 = vsum (firstn (Datatypes.S i) l).
Proof. intros H. unfold cumsum. rewrite cumsum_from_nth by auto. lra. Qed.
Lemma cumsum_last l : last (cumsum l) 0 = vsum l.
Proof.
  destruct l as [|x l].
  - reflexivity.
  - rewrite last_nth. unfold cumsum. rewrite cumsum_from_length. simpl length. rewrite Nat.sub_succ, Nat.sub_0_r.
    fold (cumsum (x :: l)). rewrite cumsum_nth by (simpl; lia). rewrite firstn_all2; auto. 
Qed.

Lemma indicator_sum (f : R -> bool) l : vsum (map (fun y => indicator (f y)) l) = INR (length (filter f l)).
Proof.
  induction l as [|x l IH]; auto. simpl map. rewrite vsum_cons, IH. simpl.
  destruct (f x); unfold indicator; [|lra]. simpl length. rewrite S_INR. lra.
Qed.

Lemma clf_k1_eq ys ks c : (forall k, In k ks -> 1 <= k < length ys)%nat ->
  clf_k1 ys ks c = map (fun k => count_class (firstn k ys) c) ks.
Proof.
  intros H. unfold clf_k1, clf_k1_and_total. apply map_ext_in. intros k Hk. specialize (H k Hk).
  rewrite cumsum_nth by (rewrite map_length; lia).
  replace (Datatypes.S (k - 1)) with k by lia. rewrite firstn_map, indicator_sum. reflexivity.
Qed.

Lemma count_class_split ys k c : count_class ys c - count_class (firstn k ys) c = count_class (skipn k ys) c.
Proof.
  unfold count_class. rewrite <- (firstn_skipn k ys) at 1. rewrite filter_app, app_length, plus_INR. lra.
Qed.

Lemma clf_k2_eq ys ks c : (forall k, In k ks -> 1 <= k < length ys)%nat ->
  clf_k2 ys ks c = map (fun k => count_class (skipn k ys) c) ks.
Proof.
  intros H. unfold clf_k2. rewrite clf_k1_eq by auto. rewrite map_map. apply map_ext_in. intros k Hk.
  unfold clf_k1_and_total. rewrite cumsum_last, indicator_sum.
  fold (count_class ys c). apply count_class_split.
Qed.

Lemma map2_map {B C D E} (f : B -> C -> D) (g : E -> B) (h : E -> C) l : map2 f (map g l) (map h l) = map (fun x => f (g x) (h x)) l.
Proof. induction l; simpl; auto. rewrite IHl; auto. Qed.

Lemma Forall_firstn {B} (Q : B -> Prop) k l : Forall Q l -> Forall Q (firstn k l).
Proof. rewrite !Forall_forall. intros H x Hx. apply H. apply in_firstn_nth in Hx as (i & _ & E). eapply nth_error_In; eauto. Qed.
Lemma Forall_skipn {B} (Q : B -> Prop) k l : Forall Q l -> Forall Q (skipn k l).
Proof. rewrite !Forall_forall. intros H x Hx. apply H. apply in_skipn_nth in Hx as (i & _ & E). eapply nth_error_In; eauto. Qed.

Lemma clf_log_p_data_eq k p (part : nat -> list R) ks :
  clf_pok k p -> (forall j, Forall (clf_yok k) (part j)) ->
  clf_log_p_data p (map (fun c => map (fun j => count_class (part j) c) ks) (seq 0 (length p))) (length ks)
  = map (fun j => ln (dm_prob p (part j))) ks.
Proof.
  intros Hk Hpart. unfold clf_log_p_data. apply nth_error_ext. intros i.
  rewrite !nth_error_map, nth_error_seq. destruct (Nat.ltb_spec i (length ks)) as [Hi|Hi].
  - rewrite (nth_error_nth' ks 0%nat Hi). simpl. f_equal.
    rewrite <- (betaln_dm k) by auto. f_equal. f_equal.
    rewrite map_map, map2_map_r, map2_seq. unfold add_counts. apply map_ext. intros c.
    rewrite <- (count_class_label k) by auto. rewrite Rmult_1_l. f_equal.
    rewrite nth_indep with (d' := count_class (part 0%nat) c) by (rewrite map_length; auto).
    rewrite (map_nth (fun j => count_class (part j) c)). reflexivity.
  - simpl. symmetry. rewrite (proj2 (nth_error_None ks i)) by auto. auto.
Qed.

Lemma clf_split_eq k pp lvl p n_dim ys ks : clf_pok k p -> Forall (clf_yok k) ys ->
  (forall j, In j ks -> 1 <= j < length ys)%nat ->
  clf_split pp lvl p n_dim ys ks =
  map (fun j => ln (pp ^ (1 + lvl) / (INR (length ks) * INR n_dim)) + ln (dm_prob p (firstn j ys))
                + ln (dm_prob p (skipn j ys))) ks.
Proof.
  intros Hk Hy Hks. unfold clf_split.
  rewrite (map_ext (clf_k1 ys ks) (fun c => map (fun j => count_class (firstn j ys) c) ks))
    by (intros; apply clf_k1_eq; auto).
  rewrite (map_ext (clf_k2 ys ks) (fun c => map (fun j => count_class (skipn j ys) c) ks))
    by (intros; apply clf_k2_eq; auto).
  rewrite (clf_log_p_data_eq k p (fun j => firstn j ys) ks) by (auto; intros; apply Forall_firstn; auto).
  rewrite (clf_log_p_data_eq k p (fun j => skipn j ys) ks) by (auto; intros; apply Forall_skipn; auto).
  rewrite map2_map. reflexivity.
Qed.

Lemma many_R_many ys : many_R ys = true <-> many ys.
Proof.
  unfold many_R, many. rewrite Nat.ltb_lt. split.
  - intros H. pose proof (NoDup_nodup Req_EM_T ys) as N.
    destruct (nodup Req_EM_T ys) as [|a [|b l]] eqn:E; simpl in H; try lia.
    exists a, b. assert (Ha : In a (nodup Req_EM_T ys)) by (rewrite E; simpl; auto).
    assert (Hb : In b (nodup Req_EM_T ys)) by (rewrite E; simpl; auto).
    apply nodup_In in Ha, Hb. repeat split; auto. intros ->. inversion N; subst. apply H2; simpl; auto.
  - intros (a & b & Ha & Hb & Hab).
    apply (nodup_In Req_EM_T) in Ha, Hb.
    destruct (nodup Req_EM_T ys) as [|u [|v l]]; simpl in *; [tauto| |lia].
    destruct Ha as [->|[]], Hb as [->|[]]. congruence.
Qed.

Lemma many_perm {Y} (a b : list Y) : Permutation a b -> many a -> many b.
Proof. intros Hp (u & v & Hu & Hv & Hn). exists u, v. repeat split; auto; eapply Permutation_in; eauto. Qed.

Theorem clf_law k pp delta : 0 <= delta -> lik_law (clf_lik pp delta) (clf_tgt pp delta) (clf_pok k) (clf_yok k).
Proof.
  intros Hd. constructor; simpl.
  - reflexivity.
  - intros lvl p ys Hk Hy Hne. unfold clf_no_split. rewrite (clf_posterior_add k) by auto.
    rewrite (betaln_dm k) by auto. reflexivity.
  - intros lvl p n_dim ys ks Hk Hy _ _ Hks. apply clf_split_eq with (k := k); auto.
  - reflexivity.
  - apply Rgtb_true.
  - apply Rgtb_irrefl.
  - apply Rgtb_trans.
  - apply Rgtb_ntrans.
  - intros p ys Hk Hy _. apply (clf_posterior_add k); auto.
  - intros p ys Hk Hy _. destruct (Reqb delta 0) eqn:E.
    + rewrite <- (clf_posterior_add k) by auto. unfold clf_posterior. rewrite E. auto.
    + apply (clf_posterior_add k); auto.
  - intros p ys n d Hk Hy _. apply add_counts_pos; auto.
  - intros ys _ _. apply many_R_many.
Qed.

Lemma add_counts_perm w p ys ys' : Permutation ys ys' -> add_counts w p ys = add_counts w p ys'.
Proof. intros H. unfold add_counts. apply map_ext. intros c. rewrite (count_label_perm _ _ _ H). auto. Qed.

Theorem clf_tgt_perm pp delta : tgt_perm (clf_tgt pp delta).
Proof.
  constructor; simpl.
  - intros lvl p ys ys' H. rewrite (dm_prob_perm p ys ys' H). auto.
  - intros lvl p n m a a' b b' Ha Hb. rewrite (dm_prob_perm p _ _ Ha), (dm_prob_perm p _ _ Hb). auto.
  - intros p ys ys' H. apply add_counts_perm; auto.
  - intros p ys ys' H. apply add_counts_perm; auto.
  - intros ys ys' H. apply many_perm; auto.
Qed.
