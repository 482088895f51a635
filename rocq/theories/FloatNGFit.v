(** * FloatNGFit: the whole float64 regression fit on integer targets (C81). *)
From Coq Require Import Reals Lra Permutation Psatz.
From Flocq Require Import Core BinarySingleNaN.
From Verif Require Import Prelude Lists Tree Perp Api Spec ApiSpec FloatFeat FloatReg FloatSum FloatNG FitPrior.
Local Open Scope R_scope.

(** ** Sums of integers *)
Definition zsq (z : Z) : Z := (z * z)%Z.
Lemma cauchy zs : (zsum zs * zsum zs <= Z.of_nat (length zs) * zsum (map zsq zs))%Z.
Proof.
  induction zs as [|a zs IH]; [simpl; lia|]. cbn [map zsum fold_right length]. fold (zsum zs). fold (zsum (map zsq zs)). unfold zsq at 1.
  rewrite Nat2Z.inj_succ. set (S := zsum zs) in *. set (T := zsum (map zsq zs)) in *. set (n := Z.of_nat (length zs)) in *.
  assert (Hn : (0 <= n)%Z) by (unfold n; lia). destruct (Z.eq_dec n 0) as [E|E].
  - rewrite E in *. assert (S = 0)%Z by (destruct (Z.eq_dec S 0) as [|N]; [auto|exfalso; nia]). assert (0 <= T)%Z; [|nia].
    unfold T. clear. induction zs as [|b zs IH]; [simpl; lia|]. cbn [map zsum fold_right]. fold (zsum (map zsq zs)). unfold zsq at 1. nia.
  - assert (H : (0 <= n * (n * (a * a) + T - 2 * a * S))%Z).
    { pose proof (Z.square_nonneg (n * a - S)). ring_simplify in H. ring_simplify. lia. }
    apply Z.mul_nonneg_cancel_l in H; lia.
Qed.
Lemma zsum_sq_pos zs : (0 <= zsum (map zsq zs))%Z.
Proof. induction zs as [|b zs IH]; [simpl; lia|]. cbn [map zsum fold_right]. fold (zsum (map zsq zs)). unfold zsq at 1. nia. Qed.
Lemma zsum_abs_sq zs : (zsum (map Z.abs zs) <= zsum (map zsq zs))%Z.
Proof.
  induction zs as [|b zs IH]; [simpl; lia|]. cbn [map zsum fold_right]. fold (zsum (map zsq zs)). fold (zsum (map Z.abs zs)).
  assert (Z.abs b <= zsq b)%Z; [unfold zsq; nia|lia].
Qed.
Lemma zsum_sq_abs zs : map Z.abs (map zsq zs) = map zsq zs.
Proof. rewrite map_map. apply map_ext. intros a. unfold zsq. apply Z.abs_eq. nia. Qed.
Lemma zsum_part (f : nat -> Z) r l : (forall i, (0 <= f i)%Z) -> NoDup r -> incl r l -> (zsum (map f r) <= zsum (map f l))%Z.
Proof.
  intros Hf. revert l. induction r as [|a r IH]; intros l Hn Hi.
  - simpl. clear Hi. induction l as [|b l IHl]; [simpl; lia|]. cbn [map zsum fold_right]. fold (zsum (map f l)). specialize (Hf b). lia.
  - inversion Hn as [|? ? Ha Hn']; subst. destruct (in_split a l) as (l1 & l2 & ->); [apply Hi; left; auto|].
    specialize (IH (l1 ++ l2)%list Hn'). assert (H : incl r (l1 ++ l2)).
    { intros x Hx. assert (In x (l1 ++ a :: l2)) by (apply Hi; right; auto). apply in_app_iff in H as [H|[<-|H]]; [apply in_app_iff; auto|contradiction|apply in_app_iff; auto]. }
    specialize (IH H). rewrite map_app, zsum_app in IH |- *. cbn [map zsum fold_right]. fold (zsum (map f r)). fold (zsum (map f l2)). lia.
Qed.

(** ** Lists of integer targets *)
Lemma ints_sq ys zs : Forall2 is_int ys zs -> (zsum (map zsq zs) < 2 ^ 53)%Z -> Forall2 is_int (map f_sq ys) (map zsq zs).
Proof.
  induction 1 as [|y z ys zs Hy Hz IH]; intros Hb; [constructor|]. cbn [map zsum fold_right] in *. fold (zsum (map zsq zs)) in Hb.
  pose proof (zsum_sq_pos zs). assert (0 <= zsq z)%Z by (unfold zsq; nia). constructor; [|apply IH; lia].
  unfold f_sq, zsq. apply int_mul; auto. fold (zsq z). lia.
Qed.
Lemma ints_sum fsum ys zs : (forall l, sum_of l (fsum l)) -> Forall2 is_int ys zs -> (zsum (map zsq zs) < 2 ^ 53)%Z -> is_int (fsum ys) (zsum zs).
Proof. intros Hs H Hb. eapply sum_exact; [apply Hs|exact H|]. pose proof (zsum_abs_sq zs). lia. Qed.
Lemma ints_sum_sq fsum ys zs : (forall l, sum_of l (fsum l)) -> Forall2 is_int ys zs -> (zsum (map zsq zs) < 2 ^ 53)%Z ->
  is_int (fsum (map f_sq ys)) (zsum (map zsq zs)).
Proof. intros Hs H Hb. eapply sum_exact; [apply Hs|apply ints_sq; auto|]. rewrite zsum_sq_abs. exact Hb. Qed.

Lemma cumsum_nth l : forall acc k, (k < length l)%nat -> nth k (f_cumsum_from acc l) f_zero = fold_left f_add (firstn (S k) l) acc.
Proof.
  induction l as [|a l IH]; intros acc k Hk; [simpl in Hk; lia|]. destruct k as [|k]; [reflexivity|].
  cbn [f_cumsum_from nth]. rewrite IH by (simpl in Hk; lia). reflexivity.
Qed.
Lemma cumsum_sum l s : (1 <= s <= length l)%nat -> nth (s - 1) (f_cumsum l) f_zero = f_sum (firstn s l).
Proof. intros H. unfold f_cumsum. rewrite cumsum_nth by lia. replace (S (s - 1)) with s by lia. reflexivity. Qed.
Lemma Forall2_firstn {A B} (R : A -> B -> Prop) l l' k : Forall2 R l l' -> Forall2 R (firstn k l) (firstn k l').
Proof. intros H. revert k. induction H; intros [|k]; simpl; constructor; auto. Qed.
Lemma zsum_firstn zs k : zsum zs = (zsum (firstn k zs) + zsum (skipn k zs))%Z.
Proof. rewrite <- zsum_app, firstn_skipn. reflexivity. Qed.
Lemma firstn_removelast {A} (l : list A) s : (s < length l)%nat -> firstn s (removelast l) = firstn s l.
Proof.
  revert s. induction l as [|a l IH]; intros s H; [reflexivity|]. destruct l as [|b l]; [destruct s; [reflexivity|simpl in H; lia]|].
  destruct s as [|s]; [reflexivity|]. change (removelast (a :: b :: l)) with (a :: removelast (b :: l)). cbn [firstn]. f_equal. apply IH. simpl in *. lia.
Qed.
Lemma removelast_length {A} (l : list A) : length (removelast l) = (length l - 1)%nat.
Proof. induction l as [|a l IH]; [reflexivity|]. destruct l as [|b l]; [reflexivity|]. change (removelast (a :: b :: l)) with (a :: removelast (b :: l)). cbn [length] in *. rewrite IH. lia. Qed.

(** ** Evidence *)
Section Agree.
Variable fsum : list float64 -> float64.
Hypothesis Hsum : forall l, sum_of l (fsum l).
Variables (flog flog' fgammaln : float64 -> float64) (fpow : float64 -> nat -> float64) (f2pi : float64).
Variables (pp delta : float64).
(** The two logarithms agree on the finite numbers that are not negative. *)
Hypothesis Hlog : forall x, is_finite x = true -> 0 <= B2R x -> flog' x = flog x.
Hypothesis Hpow : forall k, (1 <= k)%nat -> is_finite (fpow pp k) = true /\ 0 <= B2R (fpow pp k) <= 1.
Hypothesis H2pi : is_finite f2pi = true /\ 0 <= B2R f2pi.

Lemma log_p_agree prior n s q S T : is_int s S -> is_int q T -> (0 < n)%nat -> (Z.of_nat n < 2 ^ 53)%Z -> (S * S <= Z.of_nat n * T)%Z ->
  (Z.abs S < 2 ^ 53)%Z -> (0 <= T < 2 ^ 53)%Z -> prior_range prior T ->
  let post := freg_post_internal prior n s q f_one in
  freg_log_p_data flog' fgammaln f2pi prior (fn_alpha post) (fn_beta post) (fn_kappa post) n =
  freg_log_p_data flog fgammaln f2pi prior (fn_alpha post) (fn_beta post) (fn_kappa post) n.
Proof.
  intros Hs Hq Hn Hn' Hst HS HT Hp post. destruct (post_positive prior n s q S T Hs Hq Hn Hn' Hst HS HT Hp) as (F1 & P1 & F2 & P2). fold post in F1, P1, F2, P2.
  destruct Hp as (Fm & Fk & Fa & Fb & Am & Ak & [Ab Ab']).
  assert (T0 : 0 <= IZR T) by (apply IZR_le; lia). pose proof (b2_pos (-52)). pose proof (b2_pos (-900)).
  assert (Hr : 0 <= B2R (fn_kappa prior) / B2R (fn_kappa post) <= 1).
  { split; [apply Rmult_le_pos; [lra|]; left; apply Rinv_0_lt_compat; lra|]. apply Rmult_le_reg_r with (B2R (fn_kappa post)); [lra|].
    unfold Rdiv. rewrite Rmult_assoc, Rinv_l by lra. lra. }
  destruct (div_ok (fn_kappa prior) (fn_kappa post) Fk) as [F3 E3]; [lra| |].
  { rewrite Rabs_pos_eq by lra. apply Rle_trans with (b2 0); [change (b2 0) with 1; lra|apply b2_le; lia]. }
  unfold freg_log_p_data. rewrite (Hlog (fn_beta prior)) by (auto; pose proof (Rmult_le_pos _ _ T0 (Rlt_le _ _ (b2_pos (-52)))); lra). rewrite (Hlog (fn_beta post)) by (auto; lra).
  rewrite (Hlog (f_div _ _)) by (auto; rewrite E3; apply RN64_nonneg; lra). rewrite (Hlog f2pi) by tauto. reflexivity.
Qed.

Section Node.
Variables (prior : fng) (T0 : Z).
Hypothesis Hp : forall T, (0 <= T <= T0)%Z -> prior_range prior T.
Hypothesis HT0 : (T0 < 2 ^ 53)%Z.
Variables (ys : list float64) (zs : list Z).
Hypothesis Hys : Forall2 is_int ys zs.
Hypothesis HTs : (zsum (map zsq zs) <= T0)%Z.
Hypothesis Hlen : (0 < length ys)%nat /\ (Z.of_nat (length ys) < 2 ^ 53)%Z.

Lemma node_sums : is_int (fsum ys) (zsum zs) /\ is_int (fsum (map f_sq ys)) (zsum (map zsq zs)) /\ (Z.abs (zsum zs) < 2 ^ 53)%Z /\
  (0 <= zsum (map zsq zs) < 2 ^ 53)%Z /\ length zs = length ys.
Proof. clear H2pi Hpow Hlog.
  pose proof (zsum_sq_pos zs). pose proof (zsum_abs zs). pose proof (zsum_abs_sq zs).
  split; [apply ints_sum; auto; lia|]. split; [apply ints_sum_sq; auto; lia|]. split; [lia|]. split; [lia|].
  clear -Hys. induction Hys; simpl; auto.
Qed.

Lemma no_split_agree lvl : freg_no_split fsum flog' fgammaln fpow f2pi pp lvl prior ys = freg_no_split fsum flog fgammaln fpow f2pi pp lvl prior ys.
Proof.
  destruct node_sums as (H1 & H2 & H3 & H4 & H5). unfold freg_no_split. f_equal.
  - destruct (Hpow (1 + lvl)) as [Fp Bp]; [lia|]. destruct one_ok as [F1 E1].
    destruct (sub_ok f_one (fpow pp (1 + lvl)) F1 Fp) as [F2 E2]. { rewrite E1. rewrite Rabs_pos_eq by lra. apply Rle_trans with (b2 0); [change (b2 0) with 1; lra|apply b2_le; lia]. }
    apply Hlog; [exact F2|]. rewrite E2, E1. apply RN64_nonneg. lra.
  - apply (log_p_agree prior (length ys) _ _ _ _ H1 H2); try tauto.
    + rewrite <- H5. apply cauchy.
    + apply Hp. lia.
Qed.

Lemma post_ok : is_finite (fn_beta (freg_posterior fsum f_one prior ys)) = true /\ 0 < B2R (fn_beta (freg_posterior fsum f_one prior ys)).
Proof.
  clear H2pi Hpow Hlog. destruct node_sums as (H1 & H2 & H3 & H4 & H5). unfold freg_posterior. replace (Beqb f_one f_zero) with false by (vm_compute; reflexivity).
  destruct (post_positive prior (length ys) (fsum ys) (fsum (map f_sq ys)) (zsum zs) (zsum (map zsq zs))) as (G1 & G2 & _); auto; try tauto.
  - rewrite <- H5. apply cauchy.
  - apply Hp. lia.
Qed.

Lemma split_agree lvl n_dim ks : ks <> [] -> (length ks < length ys)%nat -> (forall k, In k ks -> (1 <= k < length ys)%nat) ->
  (0 < n_dim)%nat -> (Z.of_nat (length ys * n_dim) < 2 ^ 53)%Z ->
  freg_split fsum flog' fgammaln fpow f2pi pp lvl prior n_dim ys ks = freg_split fsum flog fgammaln fpow f2pi pp lvl prior n_dim ys ks.
Proof.
  intros Hne Hks Hin Hd Hb. destruct node_sums as (H1 & H2 & H3 & H4 & H5). unfold freg_split.
  apply map_ext_in. intros s Hs. specialize (Hin s Hs).
  assert (Hpre : flog' (f_div (fpow pp (1 + lvl)) (f_nat (length ks * n_dim))) = flog (f_div (fpow pp (1 + lvl)) (f_nat (length ks * n_dim)))).
  { destruct (Hpow (1 + lvl)) as [Fp Bp]; [lia|].
    assert (0 < length ks * n_dim <= length ys * n_dim)%nat as [Hk1 Hk2] by (destruct ks; [congruence|simpl in *; nia]).
    destruct (int_nat (length ks * n_dim)) as [Fn En]; [lia|].
    assert (1 <= IZR (Z.of_nat (length ks * n_dim))) by (apply IZR_le; lia).
    destruct (div_ok (fpow pp (1 + lvl)) (f_nat (length ks * n_dim)) Fp) as [F2 E2]; [rewrite En; lra| |].
    { rewrite En. eapply abs_weak; [|apply (abs_div_le _ _ 0); [rewrite Rabs_pos_eq by lra; change (b2 0) with 1; lra|lra]]. lia. }
    apply Hlog; [exact F2|]. rewrite E2, En. apply RN64_nonneg. apply Rmult_le_pos; [lra|]. left. apply Rinv_0_lt_compat. lra. }
  rewrite Hpre.
  pose proof (zsum_sq_pos (firstn s zs)). pose proof (zsum_sq_pos (skipn s zs)).
  pose proof (zsum_firstn (map zsq zs) s) as Hsq. rewrite firstn_map, skipn_map in Hsq. pose proof (zsum_firstn zs s) as Hsm.
  pose proof (zsum_abs (firstn s zs)). pose proof (zsum_abs_sq (firstn s zs)). pose proof (zsum_abs (skipn s zs)). pose proof (zsum_abs_sq (skipn s zs)).
  assert (I1 : is_int (nth (s - 1) (f_cumsum ys) f_zero) (zsum (firstn s zs))).
  { rewrite cumsum_sum by lia. apply ints_sum; [exact f_sum_sum|apply Forall2_firstn, Hys|lia]. }
  assert (I2 : is_int (nth (s - 1) (f_cumsum (map f_sq (removelast ys))) f_zero) (zsum (map zsq (firstn s zs)))).
  { rewrite cumsum_sum by (rewrite map_length, removelast_length; lia). rewrite firstn_map, firstn_removelast by lia.
    apply ints_sum_sq; [exact f_sum_sum|apply Forall2_firstn, Hys|lia]. }
  assert (I3 : is_int (f_sub (fsum ys) (nth (s - 1) (f_cumsum ys) f_zero)) (zsum (skipn s zs))).
  { replace (zsum (skipn s zs)) with (zsum zs - zsum (firstn s zs))%Z by lia. apply int_sub; auto. lia. }
  assert (I4 : is_int (f_sub (fsum (map f_sq ys)) (nth (s - 1) (f_cumsum (map f_sq (removelast ys))) f_zero)) (zsum (map zsq (skipn s zs)))).
  { replace (zsum (map zsq (skipn s zs))) with (zsum (map zsq zs) - zsum (map zsq (firstn s zs)))%Z by lia. apply int_sub; auto. lia. }
  f_equal; [f_equal|]; unfold freg_side.
  - apply (log_p_agree prior s _ _ _ _ I1 I2); try lia.
    + replace s with (length (firstn s zs)) at 3 by (rewrite firstn_length; lia). apply cauchy.
    + apply Hp. lia.
  - apply (log_p_agree prior (length ys - s) _ _ _ _ I3 I4); try lia.
    + replace (length ys - s)%nat with (length (skipn s zs)) by (rewrite skipn_length; lia). apply cauchy.
    + apply Hp. lia.
Qed.
End Node.

(** ** The fit *)
(** The targets of [d] are the integers [z i]. *)
Definition int_targets {A} (d : tset A float64) (z : nat -> Z) : Prop := forall i, (i < ts_n d)%nat -> is_int (ts_y d i) (z i).
Definition square_sum {A Y} (d : tset A Y) (z : nat -> Z) : Z := zsum (map (fun i => zsq (z i)) (seq 0 (ts_n d))).

Lemma ints_rows {A} (d : tset A float64) z r : int_targets d z -> (forall i, In i r -> (i < ts_n d)%nat) -> Forall2 is_int (map (ts_y d) r) (map z r).
Proof. intros H Hr. induction r as [|a r IH]; simpl; constructor; [apply H, Hr; left; auto|apply IH; intros; apply Hr; right; auto]. Qed.
Lemma range_mono prior T T' : (0 <= T <= T')%Z -> prior_range prior T' -> prior_range prior T.
Proof. clear H2pi Hpow Hlog.
  intros H (Fm & Fk & Fa & Fb & Am & Ak & [Ab Ab']). repeat (split; [tauto|]). split; [|exact Ab']. eapply Rle_lt_trans; [|exact Ab].
  apply Rmult_le_compat_r; [left; apply b2_pos|]. apply IZR_le. lia.
Qed.
Lemma rows_facts {A} (d : tset A float64) z r : NoDup r -> (forall i, In i r -> (i < ts_n d)%nat) ->
  (zsum (map zsq (map z r)) <= square_sum d z)%Z /\ (length r <= ts_n d)%nat.
Proof.
  intros Hn Hr. assert (Hi : incl r (seq 0 (ts_n d))) by (intros i Hi; apply in_seq; specialize (Hr i Hi); lia). split.
  - rewrite map_map. apply (zsum_part (fun i => zsq (z i))); auto. intros i. unfold zsq. nia.
  - rewrite <- (seq_length (ts_n d) 0). apply NoDup_incl_length; auto.
Qed.

Variables (A V : Type) (F : feat A V) (same : ninfo fng -> ninfo fng -> bool).
Hypothesis Hdelta : Beqb delta f_zero = true.
Variables (d : tset A float64) (z : nat -> Z) (prior : fng).
Hypothesis Hz : int_targets d z.
Hypothesis HT : (square_sum d z < 2 ^ 53)%Z.
Hypothesis Hprior : prior_range prior (square_sum d z).
Hypothesis Hsize : (Z.of_nat (ts_n d * ts_dim d) < 2 ^ 53)%Z.
Hypothesis Hperm : permutes (f_argsort F).
Hypothesis Hd : tset_ok d.
Variable pa : option fng.
Hypothesis Hpa : freg_get_prior pa (ts_n d) (ts_dim d) = prior.

Lemma size_n : (Z.of_nat (ts_n d) < 2 ^ 53)%Z.
Proof. clear H2pi Hpow Hlog. destruct Hd as (_ & _ & H & _). nia. Qed.

Theorem int_positive do_prune lvl t : perp_fit F (freg_lik fsum flog fgammaln fpow f2pi pp delta) same do_prune lvl pa d = Ok t ->
  all_nodes (fun u => is_finite (fn_beta (i_post (info u))) = true /\ 0 < B2R (fn_beta (i_post (info u)))) t.
Proof. clear H2pi Hpow Hlog.
  intros E. pose proof size_n as Hn.
  pose proof (fit_posteriors F (freg_lik fsum flog fgammaln fpow f2pi pp delta) prior (fun _ _ => eq_refl)
    (fun ys => ltac:(cbn [freg_lik l_child_prior]; rewrite Hdelta; reflexivity)) same do_prune lvl pa d t Hperm Hd Hpa E) as H.
  clear E. revert H. induction t as [i|i s a b c1 IH1 c2 IH2]; cbn [all_nodes].
  - intros [(r & Hnd & Hne & Hr & Hl & Hp) _]. split; [|exact I]. rewrite Hp. destruct (rows_facts d z r Hnd Hr) as [H1 H2].
    apply (post_ok prior (square_sum d z)) with (zs := map z r); auto.
    + intros T' HT'. eapply range_mono; eauto.
    + apply ints_rows; auto.
    + rewrite map_length. destruct r; [congruence|]. simpl in *. lia.
  - intros [(r & Hnd & Hne & Hr & Hl & Hp) [Ha Hb]]. split; [|auto]. rewrite Hp. destruct (rows_facts d z r Hnd Hr) as [H1 H2].
    apply (post_ok prior (square_sum d z)) with (zs := map z r); auto.
    + intros T' HT'. eapply range_mono; eauto.
    + apply ints_rows; auto.
    + rewrite map_length. destruct r; [congruence|]. simpl in *. lia.
Qed.

Theorem int_logs do_prune lvl t : perp_fit F (freg_lik fsum flog fgammaln fpow f2pi pp delta) same do_prune lvl pa d = Ok t ->
  perp_fit F (freg_lik fsum flog' fgammaln fpow f2pi pp delta) same do_prune lvl pa d = Ok t.
Proof.
  intros E. pose proof size_n as Hn.
  refine (fit_same F (freg_lik fsum flog fgammaln fpow f2pi pp delta) prior (fun _ _ => eq_refl)
    (fun ys => ltac:(cbn [freg_lik l_child_prior]; rewrite Hdelta; reflexivity)) same (freg_lik fsum flog' fgammaln fpow f2pi pp delta)
    do_prune lvl pa d t eq_refl eq_refl eq_refl eq_refl eq_refl eq_refl _ _ Hperm Hd Hpa E).
  - intros lv r Hnd Hne Hr. destruct (rows_facts d z r Hnd Hr) as [H1 H2]. cbn [freg_lik l_no_split].
    apply (no_split_agree prior (square_sum d z)) with (zs := map z r); auto.
    + intros T' HT'. eapply range_mono; eauto.
    + apply ints_rows; auto.
    + unfold gather. rewrite map_length. destruct r; [congruence|]. simpl in *. lia.
  - intros lv r ks Hnd Hr Hne Hk Hks. destruct (rows_facts d z r Hnd Hr) as [H1 H2]. cbn [freg_lik l_split].
    apply (split_agree prior (square_sum d z)) with (zs := map z r); auto; unfold gather; rewrite ?map_length; auto.
    + intros T' HT'. eapply range_mono; eauto.
    + apply ints_rows; auto.
    + lia.
    + destruct Hd as (_ & _ & H & _). lia.
    + nia.
Qed.
End Agree.

(** The default prior is in range if the squares of the targets add up to less than 2^51. *)
Lemma default_range n n_dim T : (Z.of_nat n < 2 ^ 53)%Z -> (0 <= T < 2 ^ 51)%Z -> prior_range (freg_get_prior None n n_dim) T.
Proof.
  intros Hn HT. unfold freg_get_prior. set (m := Nat.max 1 (n / 100)).
  assert (Hm : (1 <= Z.of_nat m < 2 ^ 53)%Z).
  { assert (n / 100 <= n)%nat by (apply Nat.div_le_upper_bound; lia). unfold m. lia. }
  destruct (int_nat m) as [Fm Em]; [lia|]. destruct (int_ok 2) as [F2 E2]; [lia|]. destruct one_ok as [F1 E1].
  assert (Rm : 1 <= IZR (Z.of_nat m)) by (apply IZR_le; lia). assert (Am : Rabs (IZR (Z.of_nat m)) <= b2 53) by (apply abs_int; lia).
  destruct (div_ok (f_nat m) (f_int 2) Fm) as [Fa Ea]; [rewrite E2; lra| |].
  { rewrite Em, E2. eapply abs_weak; [|apply abs_div_le; eauto]; [lia|lra]. }
  rewrite Em, E2 in Ea. rewrite RN64_fmt in Ea.
  2:{ replace (IZR (Z.of_nat m) / 2) with (IZR (Z.of_nat m) * b2 (-1)) by (change (b2 (-1)) with (/ 2); reflexivity). apply fmt64_scaled; lia. }
  destruct (div_ok (f_div (f_nat m) (f_int 2)) f_one Fa) as [Fb Eb]; [rewrite E1; lra| |].
  { rewrite Ea, E1. eapply abs_weak; [|apply abs_div_le; [apply abs_div_le; eauto; lra|lra]]. lia. }
  rewrite Ea, E1 in Eb. replace (IZR (Z.of_nat m) / 2 / 1) with (IZR (Z.of_nat m) / 2) in Eb by lra. rewrite RN64_fmt in Eb by (rewrite <- Ea; apply fmt_B2R).
  apply Rabs_le_inv in Am. unfold prior_range. cbn [fn_mu fn_kappa fn_alpha fn_beta].
  split; [reflexivity|]. split; [exact Fm|]. split; [exact Fa|]. split; [exact Fb|]. split; [|split; [split|split]].
  - change (B2R f_zero) with 0. rewrite Rabs_R0. left. apply b2_pos.
  - rewrite Em. apply Rle_trans with (b2 0); [apply b2_le; lia|change (b2 0) with 1; lra].
  - rewrite Em. pose proof (b2_le 53 100 ltac:(lia)). lra.
  - rewrite Eb. apply Rlt_le_trans with (/ 2); [|lra]. apply Rlt_le_trans with (b2 51 * b2 (-52)); [|rewrite <- bpow_plus; apply Rle_refl].
    apply Rmult_lt_compat_r; [apply b2_pos|]. change (b2 51) with (IZR (2 ^ 51)). apply IZR_lt. lia.
  - rewrite Eb. pose proof (b2_le 53 1000 ltac:(lia)). lra.
Qed.
