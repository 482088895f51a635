(** * Exec: an executable rational shadow of the classification fit.

    Integer features, integer pseudo-counts, rational partition prior.  Evidences of label lists are
    rational, so the whole fit can be run inside Coq.  [exec_sound] shows that the result is the tree
    the real-number model of the code fits; it is only used to obtain concrete fitted trees. *)
From Coq Require Import QArith Qreals Permutation Sorted.
From Verif Require Import Prelude Lists Tree Perp RealOps Clf Api Spec FitProofs PruneProofs OptSpec OptProofs
  OptFit Transport ClfSpec ClfProofs ApiSpec ApiProofs Equiv.
Local Open Scope nat_scope.

(** ** Features *)
Definition zfeat (prec : Z) : feat Z Z := {|
  f_lt := fun x v => (2 * x <? v)%Z;
  f_ge := fun x v => (v <=? 2 * x)%Z;
  f_mid := fun a b => (a + b)%Z;               (* twice the midpoint *)
  f_gap := fun a b => (prec <? b - a)%Z;
  f_argsort := argsort_by Z.leb
|}.

Section Sort.
Context {A : Type}.
Variable leb : A -> A -> bool.
Hypothesis Ho : order_law leb.
Lemma insert_by_perm key i l : Permutation (insert_by leb key i l) (i :: l).
Proof.
  induction l as [|j l IH]; simpl; auto. destruct (leb (key j) (key i)); auto.
  rewrite IH. constructor.
Qed.
Lemma insert_by_sorted key i l : StronglySorted (fun a b => leb (key a) (key b) = true) l ->
  StronglySorted (fun a b => leb (key a) (key b) = true) (insert_by leb key i l).
Proof.
  induction 1 as [|j l Hs IH Hf]; simpl; [repeat constructor|].
  destruct (leb (key j) (key i)) eqn:E.
  - constructor; auto. rewrite Forall_forall in *. intros x Hx.
    eapply Permutation_in in Hx; [|apply insert_by_perm]. destruct Hx as [<-|Hx]; auto.
  - assert (Hij : leb (key i) (key j) = true) by (destruct (ol_total _ Ho (key i) (key j)); congruence).
    constructor; [constructor; auto|]. constructor; auto. rewrite Forall_forall in *.
    intros x Hx. eapply (ol_trans _ Ho); eauto.
Qed.
Lemma argsort_by_sorts : sorts leb (argsort_by leb).
Proof.
  intros key n. unfold argsort_by.
  assert (H : forall is acc, StronglySorted (fun a b => leb (key a) (key b) = true) acc ->
    Permutation (fold_left (fun acc i => insert_by leb key i acc) is acc) (acc ++ is) /\
    StronglySorted (fun a b => leb (key a) (key b) = true) (fold_left (fun acc i => insert_by leb key i acc) is acc)).
  { induction is as [|i is IH]; intros acc Ha; simpl.
    - rewrite app_nil_r. auto.
    - destruct (IH (insert_by leb key i acc)) as [P S]; [apply insert_by_sorted; auto|]. split; auto.
      rewrite P, insert_by_perm. apply Permutation_middle. }
  destruct (H (seq 0 n) []) as [P S]; [constructor|]. auto.
Qed.
End Sort.

Lemma Z_order : order_law Z.leb.
Proof.
  constructor; intros *; rewrite ?Z.leb_le; try lia.
Qed.
Definition gap_Z (prec : Z) (a b : Z) : bool := (prec <? b - a)%Z.
Lemma zfeat_law prec : (0 <= prec)%Z -> feat_law (zfeat prec) Z.leb (gap_Z prec) Z.add.
Proof.
  intros Hp. constructor.
  - apply Z_order.
  - apply argsort_by_sorts. apply Z_order.
  - reflexivity.
  - reflexivity.
  - intros a b _. unfold gap_Z. rewrite Z.ltb_lt, Z.leb_gt. lia.
Qed.

(** ** Targets *)
Definition zcount (c : nat) (ys : list nat) : nat := length (filter (fun y => Nat.eqb y c) ys).
(** a (a+1) ... (a+n-1). *)
Fixpoint rise (a : Z) (n : nat) : Z := match n with 0 => 1%Z | S m => (rise a m * (a + Z.of_nat m))%Z end.
Fixpoint rises (p : list Z) (c : nat) (ys : list nat) : Z :=
  match p with [] => 1%Z | a :: p' => (rise a (zcount c ys) * rises p' (S c) ys)%Z end.
Definition zsum (p : list Z) : Z := fold_right Z.add 0%Z p.
(** Probability of the labels [ys]. *)
Definition qdm (p : list Z) (ys : list nat) : Q := (rises p 0 ys # Z.to_pos (rise (zsum p) (length ys)))%Q.

Definition zadd_counts (w : Z) (p : list Z) (ys : list nat) : list Z :=
  map (fun c => (nth c p 0 + w * Z.of_nat (zcount c ys))%Z) (seq 0 (length p)).
Definition zmany (ys : list nat) : bool :=
  match ys with [] => false | y :: t => existsb (fun z => negb (Nat.eqb z y)) t end.
Fixpoint qpow (q : Q) (n : nat) : Q := match n with 0 => 1%Q | S m => (q * qpow q m)%Q end.

Definition qstop (pp : Q) (lvl : nat) (p : list Z) (ys : list nat) : Q :=
  ((1 - qpow pp (1 + lvl)) * qdm p ys)%Q.
Definition qcut (pp : Q) (lvl : nat) (p : list Z) (n m : nat) (l r : list nat) : Q :=
  (qpow pp (1 + lvl) / (inject_Z (Z.of_nat m) * inject_Z (Z.of_nat n)) * qdm p l * qdm p r)%Q.

Definition qtgt (pp : Q) (delta : Z) : tgt nat (list Z) Q := {|
  t_prior := fun pa n d => match pa with Some p => p | None => repeat (Z.of_nat (Nat.max 1 (n / 100))) d end;
  t_stop := qstop pp;
  t_cut := qcut pp;
  t_gt := fun a b => (b < a)%Q;
  t_post := zadd_counts 1;
  t_child_prior := zadd_counts delta;
  t_many := many
|}.
Definition qgt (a b : Q) : bool := negb (Qle_bool a b).
Definition qlik (pp : Q) (delta : Z) : lik nat (list Z) Q := {|
  l_prior := t_prior (qtgt pp delta);
  l_no_split := qstop pp;
  l_split := fun lvl p n ys ks => map (fun k => qcut pp lvl p n (length ks) (firstn k ys) (skipn k ys)) ks;
  l_argmax := argmax qgt;
  l_gt := qgt;
  l_ge := fun a b => Qle_bool b a;
  l_post := zadd_counts 1;
  l_child_prior := zadd_counts delta;
  l_many := zmany
|}.

Lemma zmany_many ys : zmany ys = true <-> many ys.
Proof.
  destruct ys as [|y t]; simpl.
  - split; [discriminate|]. intros (a & b & [] & _).
  - rewrite existsb_exists. split.
    + intros (z & Hz & Hn). apply negb_true_iff, Nat.eqb_neq in Hn. exists z, y. simpl; auto.
    + intros (a & b & Ha & Hb & N). destruct (Nat.eq_dec a y) as [->|Na].
      * exists b. destruct Hb as [->|Hb]; [congruence|]. split; auto. apply negb_true_iff, Nat.eqb_neq. congruence.
      * exists a. destruct Ha as [->|Ha]; [congruence|]. split; auto. apply negb_true_iff, Nat.eqb_neq. auto.
Qed.
Lemma qgt_lt a b : qgt a b = true <-> (b < a)%Q.
Proof.
  unfold qgt. rewrite negb_true_iff. split.
  - intros H. apply Qnot_le_lt. intros H'. apply Qle_bool_iff in H'. congruence.
  - intros H. destruct (Qle_bool a b) eqn:E; auto. apply Qle_bool_iff in E. apply Qle_not_lt in E. contradiction.
Qed.
Lemma qgt_le a b : qgt a b = false <-> (a <= b)%Q.
Proof. unfold qgt. rewrite negb_false_iff. apply Qle_bool_iff. Qed.

Lemma qlik_law pp delta : lik_law (qlik pp delta) (qtgt pp delta) (fun _ => True) (fun _ => True).
Proof.
  constructor; cbn [l_prior l_no_split l_split l_argmax l_gt l_post l_child_prior l_many qlik
    t_stop t_cut t_gt t_post t_child_prior t_many qtgt]; intros; auto.
  - apply qgt_lt.
  - apply qgt_le, Qle_refl.
  - rewrite qgt_lt in *. eapply Qlt_trans; eauto.
  - rewrite qgt_le in *. eapply Qle_trans; eauto.
  - apply zmany_many.
Qed.

Lemma zcount_perm c ys ys' : Permutation ys ys' -> zcount c ys = zcount c ys'.
Proof. intros H. apply Permutation_length. apply Permutation_filter; auto. Qed.
Lemma rises_perm p ys ys' : Permutation ys ys' -> forall c, rises p c ys = rises p c ys'.
Proof. intros H. induction p as [|a p IH]; intros c; simpl; auto. rewrite IH, (zcount_perm c ys ys'); auto. Qed.
Lemma qdm_perm p ys ys' : Permutation ys ys' -> qdm p ys = qdm p ys'.
Proof. intros H. unfold qdm. rewrite (rises_perm p ys ys' H), (Permutation_length H). auto. Qed.
Lemma zadd_perm w p ys ys' : Permutation ys ys' -> zadd_counts w p ys = zadd_counts w p ys'.
Proof. intros H. apply map_ext. intros c. rewrite (zcount_perm c ys ys'); auto. Qed.
Lemma qtgt_perm pp delta : tgt_perm (qtgt pp delta).
Proof.
  constructor; cbn [t_stop t_cut t_post t_child_prior t_many qtgt]; intros.
  - unfold qstop. rewrite (qdm_perm p ys ys') by auto. auto.
  - unfold qcut. rewrite (qdm_perm p a a'), (qdm_perm p b b') by auto. auto.
  - apply zadd_perm; auto.
  - apply zadd_perm; auto.
  - eapply many_perm; eauto.
Qed.

(** ** Relation to the real model *)
Section Sound.
Variable k : nat.
Definition zpok (p : list Z) : Prop := length p = k /\ Forall (fun a => (0 < a)%Z) p.

Lemma vsum_IZR p : vsum (map IZR p) = IZR (zsum p).
Proof. induction p as [|a p IH]; auto. cbn [map zsum fold_right]. rewrite vsum_cons, plus_IZR. f_equal. exact IH. Qed.
Lemma zsum_pos p : zpok p -> p <> [] -> (0 < zsum p)%Z.
Proof.
  intros (_ & H) Hne. destruct H as [|a p Ha H]; [congruence|]. simpl. assert (0 <= zsum p)%Z; [|lia].
  clear -H. induction H; simpl; lia.
Qed.
Lemma zcount_label c ys : count_label c (map INR ys) = zcount c ys.
Proof.
  unfold count_label, zcount. induction ys as [|y ys IH]; simpl; auto. rewrite label_INR.
  destruct (Nat.eqb y c); simpl; auto.
Qed.
Lemma rise_pos a n : (0 < a)%Z -> (0 < rise a n)%Z.
Proof. intros Ha. induction n; simpl; lia. Qed.
Lemma rises_pos p : Forall (fun a => (0 < a)%Z) p -> forall c ys, (0 < rises p c ys)%Z.
Proof. induction 1; intros c ys; simpl; [lia|]. pose proof (rise_pos x (zcount c ys) H). specialize (IHForall (S c) ys). lia. Qed.
Lemma zcount_snoc c ys y : zcount c (ys ++ [y]) = (zcount c ys + if Nat.eqb y c then 1 else 0).
Proof. unfold zcount. rewrite filter_app, app_length. simpl. destruct (Nat.eqb y c); simpl; lia. Qed.
Lemma rises_skip p ys y : forall c, y < c -> rises p c (ys ++ [y]) = rises p c ys.
Proof.
  induction p as [|a p IH]; intros c H; simpl; auto. rewrite IH by lia. rewrite zcount_snoc.
  replace (Nat.eqb y c) with false by (symmetry; apply Nat.eqb_neq; lia). rewrite Nat.add_0_r. auto.
Qed.
Lemma rises_snoc p ys y : forall c, c <= y < c + length p ->
  rises p c (ys ++ [y]) = (rises p c ys * (nth (y - c) p 0 + Z.of_nat (zcount y ys)))%Z.
Proof.
  induction p as [|a p IH]; intros c H; simpl in H; [lia|]. cbn [rises]. rewrite zcount_snoc.
  destruct (Nat.eqb_spec y c) as [->|N].
  - rewrite rises_skip by lia. replace (zcount c ys + 1) with (S (zcount c ys)) by lia. cbn [rise].
    rewrite Nat.sub_diag. simpl nth. ring.
  - rewrite Nat.add_0_r, IH by lia. replace (y - c) with (S (y - S c)) by lia. simpl nth. ring.
Qed.

Lemma dm_prob_snoc p ys y : dm_prob p (ys ++ [y]) = (dm_prob p ys * predictive p ys y)%R.
Proof. unfold dm_prob. rewrite seq_prob_app. simpl. ring. Qed.

Lemma qdm_dm p ys : zpok p -> Forall (fun y => y < k) ys -> Q2R (qdm p ys) = dm_prob (map IZR p) (map INR ys).
Proof.
  intros Hp. pattern ys. apply rev_ind; clear ys.
  - intros _. unfold qdm, dm_prob, Q2R. simpl. replace (rises p 0 []) with 1%Z; [simpl; lra|].
    clear Hp. generalize 0. induction p as [|a p IH]; intros c; auto. cbn [rises]. rewrite <- IH. reflexivity.
  - intros y ys IH HY. apply Forall_app in HY as [HY Hy]. inversion Hy as [|? ? Hyk _]; subst.
    specialize (IH HY). rewrite map_app. cbn [map]. rewrite dm_prob_snoc, <- IH.
    pose proof Hp as (Hl & Hpos).
    assert (Hne : p <> []) by (destruct p; simpl in *; [lia|congruence]).
    pose proof (zsum_pos p Hp Hne) as Hsum.
    unfold qdm, Q2R, predictive. cbn [Qnum Qden]. rewrite rises_snoc by lia.
    rewrite app_length. simpl length. rewrite Nat.add_1_r. cbn [rise].
    pose proof (rise_pos (zsum p) (length ys) Hsum) as Hr.
    rewrite !Z2Pos.id by lia. rewrite label_INR, zcount_label, map_length, vsum_IZR, Nat.sub_0_r.
    rewrite !mult_IZR, !plus_IZR, <- !INR_IZR_INZ.
    change 0%R with (IZR 0) at 1. rewrite map_nth.
    assert (0 < IZR (rise (zsum p) (length ys)))%R by (apply IZR_lt; lia).
    assert (0 < IZR (zsum p) + INR (length ys))%R by (pose proof (IZR_lt _ _ Hsum); pose proof (pos_INR (length ys)); lra).
    field. split; lra.
Qed.

Lemma Q2R_gt0 q : (0 < q)%Q -> (0 < Q2R q)%R.
Proof. intros H. apply Qlt_Rlt in H. replace (Q2R 0) with 0%R in H by (unfold Q2R; simpl; lra). auto. Qed.
Lemma Q2R_pow q n : Q2R (qpow q n) = (Q2R q ^ n)%R.
Proof.
  induction n as [|n IH].
  - unfold Q2R; simpl; lra.
  - cbn [qpow pow]. rewrite Q2R_mult, IH. auto.
Qed.
Lemma Q2R_inject z : Q2R (inject_Z z) = IZR z.
Proof. unfold Q2R, inject_Z. simpl. lra. Qed.

Variable pp : Q.
Variable delta : Z.
Hypothesis Hpp : (0 < pp)%Q /\ (pp < 1)%Q.
Hypothesis Hdelta : (0 <= delta)%Z.
Definition Rsq (n : nat) (q : Q) (r : R) : Prop := (0 < q)%Q /\ r = ln (Q2R q).
Definition Rpz (p : list Z) (p' : list R) : Prop := zpok p /\ p' = map IZR p.

Lemma Hpp_R : (0 < Q2R pp < 1)%R.
Proof.
  destruct Hpp as [H1 H2]. apply Q2R_gt0 in H1. apply Qlt_Rlt in H2.
  replace (Q2R 1) with 1%R in H2 by (unfold Q2R; simpl; lra). auto.
Qed.
Lemma pow_lt1 r n : (0 < r < 1)%R -> (0 < r ^ S n < 1)%R.
Proof.
  intros Hr. induction n as [|n IH].
  - rewrite pow_1. auto.
  - change (r ^ S (S n))%R with (r * r ^ S n)%R. split; [apply Rmult_lt_0_compat; lra|].
    rewrite <- (Rmult_1_l 1). apply Rmult_le_0_lt_compat; lra.
Qed.
Lemma Q2R_pos_inv q : (0 < Q2R q)%R -> (0 < q)%Q.
Proof. intros H. apply Rlt_Qlt. replace (Q2R 0) with 0%R by (unfold Q2R; simpl; lra). auto. Qed.

Lemma zpok_R p : zpok p -> clf_pok k (map IZR p).
Proof.
  intros (Hl & H). split; [rewrite map_length; auto|]. rewrite Forall_forall in *. intros x Hx.
  apply in_map_iff in Hx as (a & <- & Ha). apply IZR_lt. auto.
Qed.
Lemma yok_R ys : Forall (fun y => y < k) ys -> Forall (clf_yok k) (map INR ys).
Proof.
  intros H. rewrite Forall_forall in *. intros x Hx. apply in_map_iff in Hx as (a & <- & Ha). exists a. auto.
Qed.
Lemma qdm_pos p ys : zpok p -> Forall (fun y => y < k) ys -> (0 < Q2R (qdm p ys))%R.
Proof. intros Hp Hy. rewrite qdm_dm by auto. eapply dm_prob_pos; [apply zpok_R; auto|apply yok_R; auto]. Qed.

Lemma zadd_counts_R w p ys : map IZR (zadd_counts w p ys) = add_counts (IZR w) (map IZR p) (map INR ys).
Proof.
  unfold zadd_counts, add_counts. rewrite map_map, map_length. apply map_ext. intros c.
  rewrite plus_IZR, mult_IZR, zcount_label, <- INR_IZR_INZ. f_equal. change 0%R with (IZR 0). rewrite map_nth. auto.
Qed.
Lemma zadd_counts_ok w p ys : (0 <= w)%Z -> zpok p -> zpok (zadd_counts w p ys).
Proof.
  intros Hw (Hl & H). unfold zadd_counts. split; [rewrite map_length, seq_length; auto|].
  rewrite Forall_forall in *. intros x Hx. apply in_map_iff in Hx as (c & <- & Hc). apply in_seq in Hc.
  specialize (H (nth c p 0%Z)). assert (In (nth c p 0%Z) p) by (apply nth_In; lia). specialize (H H0). lia.
Qed.

Lemma q_rel : tgt_rel (qtgt pp delta) (clf_tgt (Q2R pp) (IZR delta)) (fun y => y < k) INR Rsq Rpz.
Proof.
  pose proof Hpp_R as HR.
  constructor; cbn [t_prior t_stop t_cut t_gt t_post t_child_prior t_many qtgt clf_tgt].
  - auto.
  - intros lvl p p' ys (Hp & ->) Hy Hne. pose proof (qdm_pos p ys Hp Hy) as Hd. unfold qstop.
    assert (E : Q2R ((1 - qpow pp (1 + lvl)) * qdm p ys) = ((1 - Q2R pp ^ (1 + lvl)) * dm_prob (map IZR p) (map INR ys))%R).
    { rewrite Q2R_mult, Q2R_minus, Q2R_pow, qdm_dm by auto. replace (Q2R 1) with 1%R by (unfold Q2R; simpl; lra). auto. }
    rewrite qdm_dm in Hd by auto. pose proof (pow_lt1 _ lvl HR). change (S lvl) with (1 + lvl) in *.
    split.
    + apply Q2R_pos_inv. rewrite E. apply Rmult_lt_0_compat; lra.
    + rewrite E, ln_mult by lra. auto.
  - intros lvl p p' n m ys zs (Hp & ->) Hy Hz _ _ Hn Hm.
    pose proof (qdm_pos p ys Hp Hy) as Hd. pose proof (qdm_pos p zs Hp Hz) as Hd2. unfold qcut.
    assert (0 < INR n)%R by (apply lt_0_INR; lia). assert (0 < INR m)%R by (apply lt_0_INR; lia).
    assert (E : Q2R (qpow pp (1 + lvl) / (inject_Z (Z.of_nat m) * inject_Z (Z.of_nat n)) * qdm p ys * qdm p zs)
      = (Q2R pp ^ (1 + lvl) / (INR m * INR n) * dm_prob (map IZR p) (map INR ys) * dm_prob (map IZR p) (map INR zs))%R).
    { rewrite !Q2R_mult, Q2R_div, Q2R_pow, !qdm_dm, Q2R_mult, !Q2R_inject, <- !INR_IZR_INZ; auto.
      intros E0. apply Qeq_eqR in E0. rewrite Q2R_mult, !Q2R_inject, <- !INR_IZR_INZ in E0.
      replace (Q2R 0) with 0%R in E0 by (unfold Q2R; simpl; lra). apply Rmult_integral in E0. lra. }
    rewrite qdm_dm in Hd, Hd2 by auto. pose proof (pow_lt1 _ lvl HR). change (S lvl) with (1 + lvl) in *.
    assert (0 < Q2R pp ^ (1 + lvl) / (INR m * INR n))%R.
    { apply Rdiv_lt_0_compat; [lra|]. apply Rmult_lt_0_compat; lra. }
    split.
    + apply Q2R_pos_inv. rewrite E. apply Rmult_lt_0_compat; [apply Rmult_lt_0_compat|]; lra.
    + rewrite E, !ln_mult; auto; try lra. apply Rmult_lt_0_compat; lra.
  - intros n s s' r r' (Hs & ->) (Hr & ->). apply Q2R_gt0 in Hs, Hr. split; intros H.
    + apply Qlt_Rlt in H. apply ln_increasing; auto.
    + apply Rlt_Qlt. apply ln_lt_inv; auto.
  - intros p p' ys (Hp & ->) Hy _. split; [apply zadd_counts_ok; auto; lia|]. rewrite zadd_counts_R. auto.
  - intros p p' ys (Hp & ->) Hy _. split; [apply zadd_counts_ok; auto; lia|]. rewrite zadd_counts_R. auto.
  - intros ys _. split.
    + intros (a & b & Ha & Hb & N). exists (INR a), (INR b). repeat split; try (apply in_map; auto).
      intros E. apply INR_eq in E. auto.
    + intros (a & b & Ha & Hb & N). apply in_map_iff in Ha as (a0 & <- & Ha). apply in_map_iff in Hb as (b0 & <- & Hb).
      exists a0, b0. repeat split; auto; congruence.
Qed.

(** Integer training data read as reals. *)
Definition real_set (d : tset Z nat) : tset R R :=
  mkSet (ts_n d) (ts_dim d) (fun i f => IZR (ts_X d i f)) (fun i => INR (ts_y d i)) (ts_names d).
Definition half_Z (f : nat) (v : Z) : R := (IZR v / 2)%R.

Definition zargmax (p : list Z) : nat := argmax (fun a b => (b <? a)%Z) p.
Definition zsame (i j : ninfo (list Z)) : bool := Nat.eqb (zargmax (i_post i)) (zargmax (i_post j)).
Definition exec_fit (prec : Z) (prune : bool) (prior : list Z) (d : tset Z nat) : res (tree (pdesc string Z) Q (list Z)) :=
  perp_fit (zfeat prec) (qlik pp delta) zsame prune 0 (Some prior) d.

Lemma argmax_from_IZR l : forall b ib i,
  argmax_from Rgtb (IZR b) ib i (map IZR l) = argmax_from (fun a b => (b <? a)%Z) b ib i l.
Proof.
  induction l as [|x l IH]; intros b ib i; simpl; auto.
  replace (Rgtb (IZR x) (IZR b)) with (b <? x)%Z.
  - destruct (b <? x)%Z; apply IH.
  - destruct (b <? x)%Z eqn:E; symmetry.
    + apply Z.ltb_lt in E. apply Rgtb_true. apply IZR_lt; auto.
    + apply Z.ltb_ge in E. apply Rgtb_false. apply IZR_le; auto.
Qed.
Lemma zargmax_R p : clf_predict_leaf (map IZR p) = zargmax p.
Proof. destruct p as [|x p]; auto. apply argmax_from_IZR. Qed.

Variable prec : Z.
Hypothesis Hprec : (0 <= prec)%Z.

Theorem exec_sound prn prior (d : tset Z nat) t srt :
  sorts Rleb srt -> tset_ok d -> zpok prior -> (forall i, i < ts_n d -> ts_y d i < k) ->
  exec_fit prec prn prior d = Ok t ->
  let h := mkHyper (Q2R pp) (Some (map IZR prior)) (IZR delta) prn (IZR prec) in
  clf_setting srt k (map IZR prior) h (real_set d) /\
  exists t', clf_fit srt h (real_set d) = Ok t' /\ tree_rel half_Z Rsq Rpz t t'.
Proof.
  intros Hsrt Hd Hp HY E h.
  assert (Hset : clf_setting srt k (map IZR prior) h (real_set d)).
  { split; auto. split; [|split; [exact Hd|]].
    - split; [apply Hpp_R|]. split; apply IZR_le; auto.
    - split; auto. destruct (zpok_R prior Hp) as [A B]. split; auto. split; auto.
      intros i Hi. exists (ts_y d i). split; auto. }
  split; auto.
  destruct (clf_fit_opt srt k (map IZR prior) h (real_set d) Hset) as (t' & t0' & E' & Ho' & Et' & _).
  exists t'. split; auto.
  unfold exec_fit in E. destruct (perp_fit_inv _ _ _ _ _ _ _ _ E) as (t0 & E0 & Et & _).
  pose proof Hd as (Hn & Hn64 & Hdim).
  destruct (pfit_root_opt Z.leb (gap_Z prec) Z.add (zfeat prec) (qlik pp delta) (qtgt pp delta) (fun _ => True) (fun _ => True)
    (ts_X d) (ts_y d) (ts_names d) (zfeat_law prec Hprec) (qlik_law pp delta) (qtgt_perm pp delta) 0 (Some prior)
    (ts_n d) (ts_dim d) Hn Hn64 Hdim (fun _ _ => I) I) as (t1 & E1 & Ho).
  rewrite E0 in E1. injection E1 as <-.
  assert (Hrel : tree_rel half_Z Rsq Rpz t0 t0').
  { assert (Hleb : forall (f : nat) a b, Rleb (IZR a) (IZR b) = (a <=? b)%Z).
    { intros _ a b. destruct (a <=? b)%Z eqn:El.
      + apply Z.leb_le in El. apply Rleb_true, IZR_le; auto.
      + apply Z.leb_gt in El. apply Rleb_false, IZR_lt; auto. }
    assert (Hgap : forall (f : nat) a b, (a <=? b)%Z = true -> gap_R (IZR prec) (IZR a) (IZR b) = gap_Z prec a b).
    { intros _ a b _. unfold gap_R, gap_Z. rewrite <- minus_IZR. destruct (prec <? b - a)%Z eqn:El.
      + apply Z.ltb_lt in El. apply Rgtb_true. apply IZR_lt; auto.
      + apply Z.ltb_ge in El. apply Rgtb_false. apply IZR_le; auto. }
    assert (Hmid : forall (f : nat) a b, (a <=? b)%Z = true -> mid_R (IZR a) (IZR b) = half_Z f (a + b)%Z).
    { intros f a b _. unfold mid_R, half_Z. rewrite plus_IZR. auto. }
    destruct (proj1 (opt_transport Z.leb (gap_Z prec) Rleb (gap_R (IZR prec)) Z.add mid_R (qtgt pp delta)
       (clf_tgt (Q2R pp) (IZR delta)) (ts_X d) (ts_y d) (ts_X (real_set d)) (ts_y (real_set d)) (ts_names d) (ts_dim d)
       (fun i => i) (fun _ => IZR) half_Z INR (fun y => y < k) Rsq Rpz Z_order R_order Hleb Hgap Hmid q_rel)
       _ _ _ _ Ho (Some (map IZR prior))) as (t1 & H1 & Hr).
    - split; [|split]; auto. rewrite Forall_forall. intros v Hv. apply in_map_iff in Hv as (i & <- & Hi).
      apply in_seq in Hi. apply HY. lia.
    - destruct (ts_n d); simpl; [lia|congruence].
    - simpl. split; auto.
    - simpl. split; auto.
    - rewrite map_id in H1.
      assert (t0' = t1) as ->; auto.
      apply (proj1 (opt_functional Rleb (gap_R (IZR prec)) mid_R (feat_R (IZR prec) srt) (clf_tgt (Q2R pp) (IZR delta))
          (ts_X (real_set d)) (ts_y (real_set d)) (ts_names d)
          (feat_R_law (IZR prec) srt (IZR_le _ _ Hprec) Hsrt) (ts_dim d)) _ _ _ _ Ho'). exact H1. }
  subst t t'. simpl h_prune. destruct prn; auto. apply prune_rel; auto.
  intros i j i' j' (_ & _ & _ & _ & _ & Hi) (_ & _ & _ & _ & _ & Hj). unfold zsame, clf_same. rewrite Hi, Hj, !zargmax_R. auto.
Qed.
End Sound.
