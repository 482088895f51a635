(** * RegProofs: the regression arithmetic implements RegSpec. *)
From Coq Require Import Permutation Sorted.
From Verif Require Import Prelude Lists Perp Gamma RealOps Reg OptSpec OptProofs ClfSpec ClfProofs RegSpec.

Definition sumsq (ys : list R) : R := vsum (map (fun y => y ^ 2) ys).

Lemma vsum_map_lin (a b : R) l : vsum (map (fun x => a * x + b) l) = a * vsum l + b * INR (length l).
Proof.
  induction l as [|x l IH]; [simpl; lra|]. cbn [map]. rewrite !vsum_cons, IH. cbn [length]. rewrite S_INR. lra.
Qed.

Lemma ssd_eq ys : ys <> [] -> ssd ys = sumsq ys - vsum ys ^ 2 / INR (length ys).
Proof.
  intros Hne. assert (Hn : INR (length ys) <> 0).
  { apply not_0_INR. destruct ys; simpl; congruence. }
  unfold ssd, sumsq. set (m := mean ys).
  assert (E : forall l, vsum (map (fun y => (y - m) ^ 2) l) = vsum (map (fun y => y ^ 2) l) - 2 * m * vsum l + INR (length l) * m ^ 2).
  { induction l as [|x l IH]; [simpl; lra|]. cbn [map]. rewrite !vsum_cons, IH. cbn [length]. rewrite S_INR. lra. }
  rewrite E. unfold m, mean. field. auto.
Qed.

Lemma ssd_nonneg ys : 0 <= ssd ys.
Proof.
  unfold ssd. set (m := mean ys). induction ys as [|x l IH]; cbn [map]; [simpl; lra|].
  rewrite vsum_cons. pose proof (pow2_ge_0 (x - m)).
  assert (forall l, 0 <= vsum (map (fun y => (y - m) ^ 2) l)).
  { induction l0 as [|z l0 IH0]; cbn [map]; [simpl; lra|]. rewrite vsum_cons. pose proof (pow2_ge_0 (z - m)). lra. }
  specialize (H0 l). lra.
Qed.

Lemma INR_len_pos {B} (ys : list B) : ys <> [] -> 0 < INR (length ys).
Proof. intros H. apply lt_0_INR. destruct ys; simpl; [congruence|lia]. Qed.

Lemma reg_posterior_update delta p ys : ys <> [] -> reg_pok p -> 0 <= delta ->
  reg_posterior delta p ys = ng_update delta p ys.
Proof.
  intros Hne (Hk & Ha & Hb) Hd. pose proof (INR_len_pos ys Hne) as Hn.
  assert (Hnd : 0 <= INR (length ys) * delta) by (apply Rmult_le_pos; lra).
  unfold reg_posterior. destruct (Reqb delta 0) eqn:E.
  - apply Reqb_true in E. subst. unfold ng_update. destruct p as [mu ka al be]; simpl in *.
    f_equal; try field; lra.
  - unfold reg_post_internal, ng_update. rewrite ssd_eq by auto. fold (sumsq ys). unfold mean. f_equal.
    + field. split; lra.
    + lra.
    + field. split; lra.
Qed.

Lemma reg_post_internal_update p ys : ys <> [] -> reg_pok p ->
  reg_post_internal p (INR (length ys)) (vsum ys) (sumsq ys) 1 = ng_update 1 p ys.
Proof.
  intros Hne Hp. rewrite <- reg_posterior_update by (auto; lra). unfold reg_posterior.
  replace (Reqb 1 0) with false by (symmetry; apply Reqb_false; lra). reflexivity.
Qed.

Lemma ng_update_ok w p ys : 0 <= w -> reg_pok p -> reg_pok (ng_update w p ys).
Proof.
  intros Hw (Hk & Ha & Hb). pose proof (pos_INR (length ys)) as Hn. pose proof (ssd_nonneg ys) as Hs.
  assert (0 <= INR (length ys) * w) by (apply Rmult_le_pos; auto).
  assert (0 <= w * ssd ys) by (apply Rmult_le_pos; auto).
  unfold ng_update. split; simpl; [lra|]. split; [lra|].
  assert (0 <= w * (ng_kappa p * INR (length ys) * (mean ys - ng_mu p) ^ 2) / (2 * (ng_kappa p + INR (length ys)))).
  { apply Rmult_le_pos.
    - apply Rmult_le_pos; auto. apply Rmult_le_pos; [apply Rmult_le_pos; lra|apply pow2_ge_0].
    - left. apply Rinv_0_lt_compat. lra. }
  simpl in H1. lra.
Qed.

Lemma mean_perm ys ys' : Permutation ys ys' -> mean ys = mean ys'.
Proof. intros H. unfold mean. rewrite (vsum_perm _ _ H), (Permutation_length H). auto. Qed.
Lemma ssd_perm ys ys' : Permutation ys ys' -> ssd ys = ssd ys'.
Proof. intros H. unfold ssd. rewrite (mean_perm _ _ H). apply vsum_perm. apply Permutation_map. auto. Qed.
Lemma ng_update_perm w p ys ys' : Permutation ys ys' -> ng_update w p ys = ng_update w p ys'.
Proof. intros H. unfold ng_update. rewrite (mean_perm _ _ H), (ssd_perm _ _ H), (Permutation_length H). auto. Qed.
Lemma ng_logev_perm p ys ys' : Permutation ys ys' -> ng_logev p ys = ng_logev p ys'.
Proof. intros H. unfold ng_logev. rewrite (ng_update_perm 1 p _ _ H), (Permutation_length H). auto. Qed.

Lemma reg_log_p_data_logev p ys : ys <> [] -> reg_pok p ->
  (let post := reg_post_internal p (INR (length ys)) (vsum ys) (sumsq ys) 1 in
   reg_log_p_data p (ng_alpha post) (ng_beta post) (ng_kappa post) (INR (length ys))) = ng_logev p ys.
Proof.
  intros Hne Hp. rewrite reg_post_internal_update by auto. cbv zeta.
  unfold reg_log_p_data, ng_logev.
  pose proof (ng_update_ok 1 p ys ltac:(lra) Hp) as (Hk' & _ & _). destruct Hp as (Hk & _ & _).
  rewrite ln_div by auto. lra.
Qed.

(** ** Vectorised split evidence *)
Lemma sorted_full_seq ks : forall lo n, StronglySorted lt ks ->
  (forall k, In k ks -> lo <= k < lo + n)%nat -> length ks = n -> ks = seq lo n.
Proof.
  induction ks as [|k ks IH]; intros lo n Hs Hr Hl.
  - simpl in Hl. subst. reflexivity.
  - simpl in Hl. destruct n as [|n]; [discriminate|]. injection Hl as Hl.
    inversion Hs as [|? ? Hs' Hf]; subst.
    assert (Hk : (lo <= k < lo + Datatypes.S (length ks))%nat) by (apply Hr; simpl; auto).
    assert (Hb : forall l b, StronglySorted lt l -> (forall x, In x l -> b < x < lo + Datatypes.S (length ks))%nat ->
               l = [] \/ (b + length l < lo + Datatypes.S (length ks))%nat).
    { induction l as [|z l IHl]; intros b Hsl Hbl; auto. right.
      inversion Hsl as [|? ? Hsl' Hfl]; subst.
      destruct (IHl z Hsl') as [->|H].
      - intros x Hx. rewrite Forall_forall in Hfl. specialize (Hfl x Hx). specialize (Hbl x). simpl in Hbl. specialize (Hbl (or_intror Hx)). lia.
      - simpl. specialize (Hbl z (or_introl eq_refl)). lia.
      - simpl. specialize (Hbl z (or_introl eq_refl)). lia. }
    rewrite Forall_forall in Hf.
    assert (Hkl : k = lo).
    { destruct (Hb ks k Hs') as [E|H].
      - intros x Hx. specialize (Hf x Hx). specialize (Hr x). simpl in Hr. specialize (Hr (or_intror Hx)). lia.
      - subst ks. simpl in *. lia.
      - lia. }
    subst k. simpl. f_equal. apply IH; auto.
    intros x Hx. specialize (Hf x Hx). specialize (Hr x). simpl in Hr. specialize (Hr (or_intror Hx)). lia.
Qed.

Lemma map_nth_seq1 (l : list R) : map (fun s => nth (s - 1) l 0) (seq 1 (length l)) = l.
Proof.
  rewrite <- seq_shift, map_map. transitivity (map (fun c => nth c l 0) (seq 0 (length l))); [|apply map_seq_nth].
  apply map_ext. intros c. replace (Datatypes.S c - 1)%nat with c by lia. auto.
Qed.

Lemma pick_eq ks n (l : list R) : StronglySorted lt ks -> (forall k, In k ks -> 1 <= k < n)%nat -> length l = (n - 1)%nat ->
  (if Nat.eqb (length ks) (n - 1) then l else map (fun s => nth (s - 1) l 0) ks) = map (fun s => nth (s - 1) l 0) ks.
Proof.
  intros Hs Hr Hl. destruct (Nat.eqb_spec (length ks) (n - 1)) as [E|E]; auto.
  rewrite (sorted_full_seq ks 1 (n - 1) Hs); [|intros k Hk; specialize (Hr k Hk); lia|auto].
  rewrite <- Hl. symmetry. apply map_nth_seq1.
Qed.

Lemma nth_removelast (l : list R) i : (i < length l - 1)%nat -> nth i (removelast l) 0 = nth i l 0.
Proof.
  revert i; induction l as [|x l IH]; intros i Hi; simpl in *; [lia|].
  destruct l as [|z l]; simpl in *; [lia|]. destruct i; auto. apply IH. simpl. lia.
Qed.
Lemma length_removelast {B} (l : list B) : length (removelast l) = (length l - 1)%nat.
Proof.
  induction l as [|x l IH]; auto. destruct l as [|z l]; auto.
  change (removelast (x :: z :: l)) with (x :: removelast (z :: l)). cbn [length] in *. lia.
Qed.
Lemma firstn_removelast' {B} (l : list B) k : (k < length l)%nat -> firstn k (removelast l) = firstn k l.
Proof.
  revert k; induction l as [|x l IH]; intros k Hk; simpl in *; [lia|].
  destruct l as [|z l]; simpl in *.
  - assert (k = 0%nat) by lia. subst. auto.
  - destruct k; auto. simpl. f_equal. apply (IH k). lia.
Qed.

Lemma vsum_skipn ys k : vsum ys - vsum (firstn k ys) = vsum (skipn k ys).
Proof. rewrite <- (firstn_skipn k ys) at 1. rewrite vsum_app. lra. Qed.
Lemma sumsq_skipn ys k : sumsq ys - sumsq (firstn k ys) = sumsq (skipn k ys).
Proof. unfold sumsq. rewrite <- (firstn_skipn k ys) at 1. rewrite map_app, vsum_app. lra. Qed.

Lemma combine_map3 {B} (f g h : B -> R) (l : list B) :
  combine (map f l) (combine (map g l) (map h l)) = map (fun x => (f x, (g x, h x))) l.
Proof. induction l; simpl; auto. rewrite IHl. auto. Qed.

Lemma nth_map_sub c (l : list R) i : (i < length l)%nat -> nth i (map (fun s => c - s) l) 0 = c - nth i l 0.
Proof. intros H. rewrite nth_indep with (d' := c - 0) by (rewrite map_length; auto). apply (map_nth (fun s => c - s)). Qed.

Lemma reg_split_eq pp lvl p n_dim ys ks : reg_pok p -> StronglySorted lt ks ->
  (forall k, In k ks -> 1 <= k < length ys)%nat ->
  reg_split pp lvl p n_dim ys ks =
  map (fun k => ln (pp ^ (1 + lvl) / (INR (length ks) * INR n_dim)) + ng_logev p (firstn k ys) + ng_logev p (skipn k ys)) ks.
Proof.
  intros Hp Hs Hr. unfold reg_split. set (n := length ys).
  set (n1 := map INR (seq 1 (n - 1))). set (s1 := removelast (cumsum ys)).
  set (q1 := cumsum (map (fun y => y ^ 2) (removelast ys))).
  assert (L1 : length n1 = (n - 1)%nat) by (unfold n1; rewrite map_length, seq_length; auto).
  assert (L2 : length s1 = (n - 1)%nat) by (unfold s1, cumsum; rewrite length_removelast, cumsum_from_length; auto).
  assert (L3 : length q1 = (n - 1)%nat) by (unfold q1, cumsum; rewrite cumsum_from_length, map_length, length_removelast; auto).
  assert (N1 : forall k, In k ks -> nth (k - 1) n1 0 = INR (length (firstn k ys))).
  { intros k Hk. specialize (Hr k Hk). unfold n1. rewrite nth_indep with (d' := INR 0) by (rewrite map_length, seq_length; lia).
    rewrite map_nth, seq_nth by lia. f_equal. rewrite firstn_length_le; lia. }
  assert (S1 : forall k, In k ks -> nth (k - 1) s1 0 = vsum (firstn k ys)).
  { intros k Hk. specialize (Hr k Hk). unfold s1. rewrite nth_removelast.
    - rewrite cumsum_nth by lia. f_equal. f_equal. lia.
    - unfold cumsum. rewrite cumsum_from_length. lia. }
  assert (Q1 : forall k, In k ks -> nth (k - 1) q1 0 = sumsq (firstn k ys)).
  { intros k Hk. specialize (Hr k Hk). unfold q1. rewrite cumsum_nth by (rewrite map_length, length_removelast; lia).
    rewrite firstn_map. unfold sumsq. rewrite firstn_removelast' by lia. f_equal. f_equal. f_equal. lia. }
  assert (R1 : forall k, In k ks -> (k - 1 < n - 1)%nat) by (intros k Hk; specialize (Hr k Hk); lia).
  rewrite !(pick_eq ks n) by (auto; rewrite map_length; auto).
  unfold reg_side.
  rewrite !combine_map3, !map_map, map2_map. apply map_ext_in. intros k Hk.
  rewrite !nth_map_sub by (rewrite ?L1, ?L2, ?L3; auto).
  rewrite N1, S1, Q1 by auto.
  fold (sumsq ys). rewrite vsum_skipn, sumsq_skipn.
  specialize (Hr k Hk).
  replace (INR n - INR (length (firstn k ys))) with (INR (length (skipn k ys))).
  - rewrite <- (reg_log_p_data_logev p (firstn k ys)), <- (reg_log_p_data_logev p (skipn k ys)); auto.
    + intros E. apply (f_equal (@length R)) in E. rewrite skipn_length in E. simpl in E. lia.
    + intros E. apply (f_equal (@length R)) in E. rewrite firstn_length_le in E by lia. simpl in E. lia.
  - rewrite <- minus_INR.
    + f_equal. rewrite skipn_length, firstn_length_le by lia. auto.
    + rewrite firstn_length_le by lia. unfold n. lia.
Qed.

Theorem reg_law pp delta : 0 <= delta -> lik_law (reg_lik pp delta) (reg_tgt pp delta) reg_pok (fun _ => True).
Proof.
  intros Hd. constructor; simpl.
  - intros [p|] n d; simpl; auto. f_equal. lra.
  - intros lvl p ys Hp _ Hne. unfold reg_no_split. fold (sumsq ys).
    rewrite <- (reg_log_p_data_logev p ys) by auto. reflexivity.
  - intros lvl p n_dim ys ks Hp _ _ Hs Hr. apply reg_split_eq; auto.
  - reflexivity.
  - apply Rgtb_true.
  - apply Rgtb_irrefl.
  - apply Rgtb_trans.
  - apply Rgtb_ntrans.
  - intros p ys Hp _ Hne. apply reg_posterior_update; auto. lra.
  - intros p ys Hp _ Hne. destruct (Reqb delta 0) eqn:E.
    + rewrite <- reg_posterior_update by auto. unfold reg_posterior. rewrite E. auto.
    + apply reg_posterior_update; auto.
  - intros p ys n d Hp _ _. apply ng_update_ok; auto.
  - intros ys _ _. apply many_R_many.
Qed.

Theorem reg_tgt_perm pp delta : tgt_perm (reg_tgt pp delta).
Proof.
  constructor; simpl.
  - intros lvl p ys ys' H. rewrite (ng_logev_perm p _ _ H). auto.
  - intros lvl p n m a a' b b' Ha Hb. rewrite (ng_logev_perm p _ _ Ha), (ng_logev_perm p _ _ Hb). auto.
  - intros p ys ys' H. apply ng_update_perm; auto.
  - intros p ys ys' H. apply ng_update_perm; auto.
  - intros ys ys' H. apply many_perm; auto.
Qed.

(** ** Sequential form *)
Definition ng_canon (p : ng) (n s q : R) : ng :=
  mkNG ((ng_kappa p * ng_mu p + s) / (ng_kappa p + n)) (ng_kappa p + n) (ng_alpha p + n / 2)
       (ng_beta p + (q + ng_kappa p * ng_mu p ^ 2 - (ng_kappa p * ng_mu p + s) ^ 2 / (ng_kappa p + n)) / 2).

Lemma ng_update_canon p ys : reg_pok p -> ng_update 1 p ys = ng_canon p (INR (length ys)) (vsum ys) (sumsq ys).
Proof.
  intros (Hk & _ & _). destruct ys as [|y0 ys0].
  - assert (Hm : mean [] = 0) by (unfold mean; simpl; unfold Rdiv; ring).
    unfold ng_update, ng_canon. rewrite Hm. unfold ssd, sumsq. simpl. f_equal; field; repeat split; lra.
  - set (ys := y0 :: ys0) in *. assert (Hne : ys <> []) by discriminate. pose proof (INR_len_pos ys Hne) as Hn.
    unfold ng_update, ng_canon. rewrite ssd_eq by auto. unfold mean. f_equal; field; repeat split; lra.
Qed.

Lemma ng_canon_step p n s q y : 0 < ng_kappa p -> 0 <= n ->
  ng_step (ng_canon p n s q) y = ng_canon p (n + 1) (s + y) (q + y ^ 2).
Proof. intros Hk Hn. unfold ng_step, ng_canon. simpl. f_equal; field; repeat split; lra. Qed.

Lemma sumsq_app a b : sumsq (a ++ b) = sumsq a + sumsq b.
Proof. unfold sumsq. rewrite map_app, vsum_app. auto. Qed.

Lemma ng_update_snoc p ys y : reg_pok p -> ng_update 1 p (ys ++ [y]) = ng_step (ng_update 1 p ys) y.
Proof.
  intros Hp. rewrite !ng_update_canon by auto. rewrite ng_canon_step by (apply Hp || apply pos_INR).
  rewrite app_length, plus_INR, vsum_app, sumsq_app. f_equal; simpl; unfold sumsq; simpl; lra.
Qed.

Lemma ng_update_app p ys zs : reg_pok p -> ng_update 1 p (ys ++ zs) = ng_update 1 (ng_update 1 p ys) zs.
Proof.
  intros Hp. assert (Hp' := ng_update_ok 1 p ys ltac:(lra) Hp). 
  rewrite (ng_update_canon (ng_update 1 p ys)) by auto. rewrite !ng_update_canon by auto.
  rewrite app_length, plus_INR, vsum_app, sumsq_app.
  pose proof (pos_INR (length ys)). pose proof (pos_INR (length zs)). destruct Hp as (Hk & _ & _).
  unfold ng_canon. simpl. f_equal; field; repeat split; lra.
Qed.

Lemma ng_update_nil p : reg_pok p -> ng_update 1 p [] = p.
Proof.
  intros Hp. rewrite ng_update_canon by auto. destruct Hp as (Hk & _). destruct p as [mu ka al be]. 
  unfold ng_canon, sumsq. simpl in *. f_equal; field; repeat split; lra.
Qed.

Lemma ng_logev_app p ys zs : reg_pok p ->
  ng_logev p (ys ++ zs) = ng_logev p ys + ng_logev (ng_update 1 p ys) zs.
Proof.
  intros Hp. unfold ng_logev. rewrite ng_update_app by auto. rewrite app_length, plus_INR. lra.
Qed.

Lemma ng_logev_one p y : reg_pok p -> ng_logev p [y] = student_ln p y.
Proof.
  intros Hp. change [y] with ([] ++ [y]). unfold ng_logev. rewrite ng_update_snoc by auto.
  rewrite ng_update_nil by auto. destruct Hp as (Hk & Ha & Hb). destruct p as [mu ka al be].
  unfold ng_step, student_ln. simpl in *.
  set (t := ka * ((y - mu) * ((y - mu) * 1)) / (2 * be * (ka + 1))).
  assert (Ht : 0 <= t).
  { unfold t. apply Rmult_le_pos.
    - apply Rmult_le_pos; [lra|]. pose proof (pow2_ge_0 (y - mu)). simpl in H. auto.
    - left. apply Rinv_0_lt_compat. apply Rmult_lt_0_compat; lra. }
  replace (be + ka * ((y - mu) * ((y - mu) * 1)) / (2 * (ka + 1))) with (be * (1 + t)) by (unfold t; field; lra).
  rewrite ln_mult by lra.
  assert (HPI := PI_RGT_0).
  assert (H1 : 0 < 2 * PI) by lra.
  assert (H2 : 0 < 2 * PI * be) by (apply Rmult_lt_0_compat; lra).
  assert (H3 : 0 < 2 * PI * be * (ka + 1)) by (apply Rmult_lt_0_compat; lra).
  rewrite ln_div by auto.
  rewrite (ln_mult (2 * PI * be) (ka + 1)) by lra.
  rewrite (ln_mult (2 * PI) be) by lra. lra.
Qed.

Theorem ng_logev_seq p ys : reg_pok p -> ng_logev p ys = seq_student p ys.
Proof.
  revert p; induction ys as [|y ys IH]; intros p Hp; simpl.
  - unfold ng_logev. rewrite ng_update_nil by auto. simpl. lra.
  - change (y :: ys) with ([y] ++ ys). rewrite ng_logev_app, ng_logev_one by auto. f_equal.
    change [y] with ([] ++ [y]). rewrite ng_update_snoc, ng_update_nil by auto. apply IH.
    replace (ng_step p y) with (ng_update 1 p [y]).
    + apply ng_update_ok; auto. lra.
    + change [y] with ([] ++ [y]). rewrite ng_update_snoc, ng_update_nil by auto. auto.
Qed.
