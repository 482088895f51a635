(** * AnnealProofs: the trace of a run of the simulated annealing optimizer (C72). *)
From Coq Require Import Reals Lra Permutation Sorted.
From Verif Require Import Prelude Tree Perp RealOps Clf Reg Api Hyper Sphere SphereProofs Optim OptimProofs OptimLemmas AnnealSpec Spec OptProofs.
Local Open Scope R_scope.

(** ** Sorted lists without repetitions *)
Definition lt_b (v w : R) : bool := if Rlt_dec w v then true else false.
Lemma lt_b_true v w : lt_b v w = true <-> w < v.
Proof. unfold lt_b. destruct (Rlt_dec w v); split; auto; try discriminate; lra. Qed.
Definition sd (l : list R) : list R := sort_keys (nodup Req_EM_T l).

Lemma sorted_strict l : StronglySorted Rle l -> NoDup l -> StronglySorted Rlt l.
Proof.
  induction 1 as [|a l Hl IH Ha]; intros Hn; [constructor|]. inversion Hn; subst. constructor; [auto|].
  rewrite Forall_forall in *. intros x Hx. specialize (Ha x Hx). destruct (Req_dec a x) as [->|]; [contradiction|lra].
Qed.
Lemma strict_nodup l : StronglySorted Rlt l -> NoDup l.
Proof.
  induction 1 as [|a l Hl IH Ha]; constructor; auto. intros Hin. rewrite Forall_forall in Ha. specialize (Ha a Hin). lra.
Qed.
Lemma strict_unique l : StronglySorted Rlt l -> forall m, StronglySorted Rlt m -> (forall x, In x l <-> In x m) -> l = m.
Proof.
  induction 1 as [|a l Hl IH Ha]; intros m Hm H.
  - destruct m as [|b m]; [auto|]. destruct (proj2 (H b) (or_introl eq_refl)).
  - destruct Hm as [|b m Hm Hb]; [destruct (proj1 (H a) (or_introl eq_refl))|]. rewrite Forall_forall in *.
    assert (a = b) as ->.
    { destruct (proj1 (H a) (or_introl eq_refl)) as [E|Hin]; [auto|]. destruct (proj2 (H b) (or_introl eq_refl)) as [E|Hin']; [auto|].
      specialize (Ha b Hin'). specialize (Hb a Hin). lra. }
    f_equal. apply IH; auto. intros x. split; intros Hx.
    + destruct (proj1 (H x) (or_intror Hx)) as [<-|]; [specialize (Ha b Hx); lra|auto].
    + destruct (proj2 (H x) (or_intror Hx)) as [<-|]; [specialize (Hb b Hx); lra|auto].
Qed.
Lemma strict_firstn k l : StronglySorted Rlt l -> StronglySorted Rlt (firstn k l).
Proof.
  revert k. induction l as [|a l IH]; intros [|k] H; cbn; try constructor; inversion H; subst; auto.
  rewrite Forall_forall in *. intros x Hx. apply H3. rewrite <- (firstn_skipn k l). apply in_or_app. now left.
Qed.
Lemma sd_strict l : StronglySorted Rlt (sd l).
Proof.
  apply sorted_strict; [apply sort_keys_sorted|]. apply (Permutation_NoDup (Permutation_sym (sort_keys_perm _))), NoDup_nodup.
Qed.
Lemma sd_In l x : In x (sd l) <-> In x l.
Proof. unfold sd. now rewrite sort_keys_In, nodup_In. Qed.
Lemma sd_length l : length (sd l) = n_distinct l.
Proof. unfold sd, n_distinct. apply sort_keys_length. Qed.
Lemma sd_ext l m : (forall x, In x l <-> In x m) -> sd l = sd m.
Proof. intros H. apply strict_unique; try apply sd_strict. intros x. now rewrite !sd_In. Qed.
Lemma sd_keys l : NoDup l -> sort_keys l = sd l.
Proof.
  intros H. apply strict_unique; [|apply sd_strict|].
  - apply sorted_strict; [apply sort_keys_sorted|]. exact (Permutation_NoDup (Permutation_sym (sort_keys_perm l)) H).
  - intros x. now rewrite sort_keys_In, sd_In.
Qed.

Lemma nth_firstn_lt {A} k (l : list A) i d : (i < k)%nat -> nth i (firstn k l) d = nth i l d.
Proof. revert k i. induction l as [|a l IH]; intros [|k] [|i] H; cbn; try lia; auto. apply IH. lia. Qed.
Lemma filter_le {A} (f : A -> bool) l : (length (filter f l) <= length l)%nat.
Proof. induction l as [|a l IH]; cbn; [lia|]. destruct (f a); cbn; lia. Qed.

(** ** Ranks *)
Lemma rank_sd l v : rank l v = length (filter (lt_b v) (sd l)).
Proof.
  unfold rank. apply Permutation_length, NoDup_Permutation; [apply NoDup_nodup|apply NoDup_filter, strict_nodup, sd_strict|].
  intros x. rewrite nodup_In, !filter_In, sd_In. reflexivity.
Qed.
Lemma filter_strict l : StronglySorted Rlt l -> forall i, (i < length l)%nat -> filter (lt_b (nth i l 0)) l = firstn i l.
Proof.
  induction 1 as [|a l Hl IH Ha]; intros i Hi; [cbn in Hi; lia|]. rewrite Forall_forall in Ha. cbn [filter]. destruct i as [|i]; cbn [nth firstn].
  - destruct (lt_b a a) eqn:E; [apply lt_b_true in E; lra|]. clear IH Hi E.
    induction l as [|b l IHl]; cbn; [auto|]. destruct (lt_b a b) eqn:E.
    + apply lt_b_true in E. specialize (Ha b (or_introl eq_refl)). lra.
    + apply IHl; [now inversion Hl|]. intros x Hx. apply Ha. now right.
  - cbn in Hi. assert (In (nth i l 0) l) as Hin by (apply nth_In; lia).
    destruct (lt_b (nth i l 0) a) eqn:E; [|specialize (Ha _ Hin); apply lt_b_true in Ha; congruence]. f_equal. apply IH. lia.
Qed.
Lemma rank_nth l i : (i < n_distinct l)%nat -> rank l (nth i (sd l) 0) = i.
Proof.
  intros H. rewrite rank_sd, filter_strict; [|apply sd_strict|now rewrite sd_length]. rewrite firstn_length, sd_length. lia.
Qed.
Lemma top_In k l x : In x (firstn k (sd l)) <-> In x l /\ (rank l x < k)%nat.
Proof.
  split.
  - intros H. apply (In_nth _ _ 0) in H as (i & Hi & <-). rewrite firstn_length in Hi.
    rewrite nth_firstn_lt by lia. rewrite rank_nth by (rewrite <- sd_length; lia). split; [|lia]. apply sd_In, nth_In. lia.
  - intros [Hin Hr]. apply sd_In, (In_nth _ _ 0) in Hin as (i & Hi & <-). rewrite rank_nth in Hr by now rewrite <- sd_length.
    rewrite <- (nth_firstn_lt k _ i 0 Hr). apply nth_In. rewrite firstn_length. lia.
Qed.
Lemma rank_incl l m v : incl l m -> (rank l v <= rank m v)%nat.
Proof.
  intros H. unfold rank. apply NoDup_incl_length; [apply NoDup_nodup|]. intros x. rewrite !nodup_In, !filter_In. intros [Hx E]. split; auto.
Qed.
Lemma rank_mono l v w : v <= w -> (rank l v <= rank l w)%nat.
Proof.
  intros H. unfold rank. apply NoDup_incl_length; [apply NoDup_nodup|]. intros x. rewrite !nodup_In, !filter_In. fold (lt_b v x). fold (lt_b w x).
  rewrite !lt_b_true. intros [Hx E]. split; [auto|lra].
Qed.
(** Keeping the best [k] of the old values loses nothing of the best [k] of the old and the new values. *)
Lemma top_merge k old new : firstn k (sd (firstn k (sd old) ++ new)) = firstn k (sd (old ++ new)).
Proof.
  apply strict_unique; try apply strict_firstn, sd_strict. intros x. rewrite !top_In, !in_app_iff.
  assert (incl (firstn k (sd old) ++ new) (old ++ new)) as Hinc.
  { intros z. rewrite !in_app_iff, top_In. tauto. }
  split.
  - intros [Hx Hr]. split; [rewrite top_In in Hx; tauto|].
    destruct (Nat.lt_ge_cases (rank old x) k) as [Hk|Hk].
    + eapply Nat.le_lt_trans; [|exact Hr]. unfold rank at 1. unfold rank at 1. apply NoDup_incl_length; [apply NoDup_nodup|].
      intros z. rewrite !nodup_In, !filter_In, !in_app_iff, top_In. fold (lt_b x z). intros [[Hz|Hz] E]; [|auto]. split; [|auto]. left. split; [auto|].
      eapply Nat.le_lt_trans; [apply rank_mono|exact Hk]. apply lt_b_true in E. lra.
    + exfalso. apply (Nat.lt_irrefl k). eapply Nat.le_lt_trans; [|exact Hr].
      assert (incl (firstn k (filter (lt_b x) (sd old))) (nodup Req_EM_T (filter (lt_b x) (firstn k (sd old) ++ new)))) as Hi.
      { intros z Hz. rewrite nodup_In, filter_In, in_app_iff.
        assert (In z (filter (lt_b x) (sd old))) as Hf by (rewrite <- (firstn_skipn k (filter (lt_b x) (sd old))); apply in_or_app; now left).
        apply filter_In in Hf as [Hf E]. split; [|exact E]. left. rewrite top_In. split; [now apply sd_In|].
        apply (In_nth _ _ 0) in Hf as (i & Hi & <-). rewrite rank_nth by now rewrite <- sd_length.
        destruct (Nat.lt_ge_cases i k) as [|Hik]; [auto|exfalso].
        apply (In_nth _ _ 0) in Hz as (j & Hj & Ej). rewrite firstn_length in Hj. rewrite nth_firstn_lt in Ej by lia.
        assert (nth j (filter (lt_b x) (sd old)) 0 = nth j (sd old) 0) as Ej'.
        { clear - Hj. assert (StronglySorted Rlt (sd old)) as Hs by apply sd_strict. revert j Hj. induction Hs as [|a l Hl IH Ha]; intros j Hj; [auto|].
          cbn [filter] in *. destruct (lt_b x a) eqn:Ea.
          - destruct j as [|j]; [auto|]. cbn [nth] in *. apply IH. cbn in Hj. lia.
          - exfalso. rewrite Forall_forall in Ha. assert (filter (lt_b x) l = []) as E0.
            { clear IH Hj. induction l as [|b l IHl]; [auto|]. cbn. destruct (lt_b x b) eqn:Eb.
              - apply lt_b_true in Eb. specialize (Ha b (or_introl eq_refl)). assert (a < x) as Hx by lra. apply lt_b_true in Hx. congruence.
              - apply IHl; [now inversion Hl|]. intros z Hz. apply Ha. now right. }
            rewrite E0 in Hj. cbn in Hj. lia. }
        rewrite Ej' in Ej. assert (j = i) as ->; [|lia].
        apply (proj1 (NoDup_nth (sd old) 0) (strict_nodup _ (sd_strict old)) j i); auto.
        pose proof (filter_le (lt_b x) (sd old)). lia. }
      apply NoDup_incl_length in Hi; [|apply (strict_nodup), strict_firstn].
      * rewrite firstn_length in Hi. rewrite rank_sd in Hk. unfold rank. fold (lt_b x). lia.
      * assert (forall l, StronglySorted Rlt l -> StronglySorted Rlt (filter (lt_b x) l)) as G; [|apply G, sd_strict].
        induction 1 as [|a l Hl IH Ha]; cbn; [constructor|]. destruct (lt_b x a); [|auto]. constructor; [auto|].
        rewrite Forall_forall in *. intros z Hz. apply filter_In in Hz as [Hz _]. auto.
  - intros [Hx Hr]. split.
    + destruct Hx as [Hx|Hx]; [left|auto]. rewrite top_In. split; [auto|]. eapply Nat.le_lt_trans; [apply (rank_incl old (old ++ new))|exact Hr].
      intros z Hz. apply in_or_app. now left.
    + eapply Nat.le_lt_trans; [apply rank_incl, Hinc|exact Hr].
Qed.

(** ** One round *)
Lemma d_set_nodup d v p : NoDup (keys d) -> NoDup (keys (d_set d v p)).
Proof.
  induction d as [|[u q] d IH]; cbn; intros H; [repeat constructor; auto|]. inversion H; subst. destruct (Reqb u v) eqn:E; cbn; [now constructor|].
  constructor; [|auto]. intros Hin. apply d_set_keys in Hin as [Hin|E2]; [contradiction|]. subst. rewrite Reqb_refl in E. discriminate.
Qed.
Lemma d_set_new d v p : NoDup (keys d) -> forall e, In e (d_set d v p) -> e = (v, p) \/ In e d /\ fst e <> v.
Proof.
  induction d as [|[u q] d IH]; cbn; intros H e; [intuition|]. inversion H; subst. destruct (Reqb u v) eqn:E; cbn.
  - apply Reqb_true in E. subst. intros [<-|Hin]; [auto|]. right. split; [auto|]. intros E. subst. apply H2. now apply keys_In.
  - intros [<-|Hin]; [|destruct (IH H3 e Hin) as [Hx|[Hx1 Hx2]]; auto]. right. split; [auto|]. cbn. intros ->. rewrite Reqb_refl in E. discriminate.
Qed.

Lemma latest_In {A} (val : A -> R) done c : latest val done c -> In c done.
Proof. intros (a & b & -> & _). apply in_or_app. right. now left. Qed.

Section Rounds.
Variables (rnd : nat -> R) (obj : list R -> res R) (val : list R -> R) (n n_scan n_keep : nat) (spread : R).
Hypothesis Hrnd : forall k, 0 <= rnd k < 1.
Hypothesis Hobj : forall p, cube n p -> obj p = Ok (val p).

Definition hist (s : rstate) : list (list R) := rev (r_evals s).
Definition counted (s : rstate) : Prop := r_draws s = (n * length (hist s))%nat.
(** The dictionary maps values of evaluated points to such points. *)
Definition dict_of (d : dict) (done : list (list R)) : Prop :=
  NoDup (keys d) /\ forall v p, In (v, p) d -> val p = v /\ latest val done p /\ cube n p.

Lemma dict_of_set d done p : dict_of d done -> cube n p -> dict_of (d_set d (val p) p) (done ++ [p]).
Proof.
  intros [Hn Hd] Hp. split; [now apply d_set_nodup|]. intros v q Hin. apply d_set_new in Hin as [E|[Hin Hne]]; [| |auto].
  - inversion E; subst. split; [auto|]. split; [|auto]. exists done, []. split; [auto|]. intros p' [].
  - destruct (Hd v q Hin) as (H1 & (a & b & E & Hb) & H3). split; [auto|]. split; [|auto]. exists a, (b ++ [p]). split; [rewrite E, <- app_assoc; auto|].
    intros p' Hp'. apply in_app_iff in Hp' as [Hp'|[<-|[]]]; [auto|]. cbn in Hne. congruence.
Qed.
Lemma Hrnd' k : 0 <= rnd k <= 1.
Proof. specialize (Hrnd k). lra. Qed.

Lemma scan_run l : forall d s, counted s -> dict_of d (hist s) -> exists d' blk s',
  for_each l (fun (_ : nat) c => p <- uniform rnd 0 1 n ;; v <- evaluate obj p ;; ret (d_set c v p)) d s = (Ok d', s') /\
  hist s' = hist s ++ blk /\ length blk = length l /\ counted s' /\ dict_of d' (hist s') /\
  (forall w, In w (keys d') <-> In w (keys d) \/ In w (map val blk)) /\
  forall i, (i < length l)%nat -> nth i blk [] = map (fun j => rnd (n * (length (hist s) + i) + j)%nat) (seq 0 n).
Proof.
  induction l as [|a l IH]; intros d s Hs Hd; cbn [for_each].
  - exists d, [], s. cbn. rewrite app_nil_r. repeat (split; [auto; tauto|]). intros i Hi. lia.
  - set (p := map (fun k => 0 + (1 - 0) * rnd (r_draws s + k)%nat) (seq 0 n)).
    assert (cube n p) as Hp by apply draws_cube, Hrnd'.
    set (s1 := mkR (r_draws s + n) (p :: r_evals s)).
    assert (hist s1 = hist s ++ [p]) as E1 by reflexivity.
    assert (counted s1) as Hs1.
    { unfold counted in *. rewrite E1, app_length. cbn. lia. }
    assert (dict_of (d_set d (val p) p) (hist s1)) as Hd1 by (rewrite E1; now apply dict_of_set).
    destruct (IH _ s1 Hs1 Hd1) as (d' & blk & s' & E & Hh & Hl & Hc & Hd' & Hk & Hnth). exists d', (p :: blk), s'.
    split; [|split; [|split; [|split; [|split; [|split]]]]]; auto.
    + rewrite <- E. unfold bind at 1 2 3, uniform, evaluate, ret. cbn [r_draws r_evals]. fold p. now rewrite Hobj.
    + rewrite Hh, E1, <- app_assoc. reflexivity.
    + cbn. now rewrite Hl.
    + intros w. rewrite Hk, d_set_keys. cbn. intuition.
    + intros [|i] Hi; cbn [nth].
      * unfold p. apply map_ext. intros j. rewrite Hs. replace (n * (length (hist s) + 0) + j)%nat with (n * length (hist s) + j)%nat by lia. ring.
      * rewrite Hnth by (cbn in Hi; lia). rewrite E1, app_length. cbn [length]. apply map_ext. intros j. f_equal. lia.
Qed.

(** Where the next point comes from. *)
Definition moved (f : R) (m : nat) (c p : list R) : Prop :=
  length p = n /\ length c = n /\
  forall j, (j < n)%nat -> nth j p 0 = Rmin 1 (Rmax 0 (nth j c 0 + f * (2 * rnd (n * m + j)%nat - 1))).

Lemma nth_map2 {A B C} (g : A -> B -> C) a b da db dc j : length a = length b -> (j < length a)%nat ->
  nth j (map2 g a b) dc = g (nth j a da) (nth j b db).
Proof. revert b j. induction a as [|x a IH]; intros [|z b] [|j] Hl Hj; cbn in *; try lia; auto. apply IH; lia. Qed.

Lemma evolve_run f vs : vs <> [] -> forall m i d s, (i + m = n_keep)%nat -> counted s -> dict_of d (hist s) -> incl vs (keys d) ->
  exists d' blk s',
  for_each (seq i m) (fun i c =>
    let candidate := d_get c (nth (i * length vs / n_keep) vs 0) in
    u <- uniform rnd (-1) 1 n ;;
    let p := clip (map2 Rplus candidate (map (fun a => f * a) u)) in
    v <- evaluate obj p ;; ret (d_set c v p)) d s = (Ok d', s') /\
  hist s' = hist s ++ blk /\ length blk = m /\ counted s' /\ dict_of d' (hist s') /\
  (forall w, In w (keys d') <-> In w (keys d) \/ In w (map val blk)) /\
  forall k, (k < m)%nat -> exists c, latest val (hist s ++ firstn k blk) c /\ val c = nth ((i + k) * length vs / n_keep) vs 0 /\
    moved f (length (hist s) + k) c (nth k blk []).
Proof.
  intros Hvs. assert (0 < length vs)%nat as Hlen by (destruct vs; [congruence|cbn; lia]).
  induction m as [|m IH]; intros i d s Him Hs Hd Hinc; cbn [seq for_each].
  - exists d, [], s. cbn. rewrite app_nil_r. repeat (split; [auto; tauto|]). intros k Hk. lia.
  - set (key := nth (i * length vs / n_keep) vs 0).
    assert (In key (keys d)) as Hkey by (apply Hinc, nth_In, scaled_index; lia).
    destruct (proj2 Hd _ _ (d_get_In d key Hkey)) as (Hv & Hin & Hc). set (c := d_get d key) in *.
    set (u := map (fun k => -1 + (1 - -1) * rnd (r_draws s + k)%nat) (seq 0 n)).
    set (p := clip (map2 Rplus c (map (fun a => f * a) u))).
    assert (length u = n) as Hu by (unfold u; now rewrite map_length, seq_length).
    assert (cube n p) as Hp by (apply clip_cube, map2_length; [apply Hc|now rewrite map_length]).
    set (s1 := mkR (r_draws s + n) (p :: r_evals s)).
    assert (hist s1 = hist s ++ [p]) as E1 by reflexivity.
    assert (counted s1) as Hs1 by (unfold counted in *; rewrite E1, app_length; cbn; lia).
    assert (dict_of (d_set d (val p) p) (hist s1)) as Hd1 by (rewrite E1; now apply dict_of_set).
    assert (incl vs (keys (d_set d (val p) p))) as Hinc1 by (intros w Hw; apply d_set_keys; left; auto).
    destruct (IH (S i) _ s1 ltac:(lia) Hs1 Hd1 Hinc1) as (d' & blk & s' & E & Hh & Hl & Hc' & Hd' & Hk & Hnth).
    exists d', (p :: blk), s'. split; [|split; [|split; [|split; [|split; [|split]]]]]; auto.
    + rewrite <- E. unfold bind at 1 2 3, uniform, evaluate, ret. cbn [r_draws r_evals]. fold u. cbv zeta. fold key. fold c. fold p. now rewrite Hobj.
    + rewrite Hh, E1, <- app_assoc. reflexivity.
    + cbn. now rewrite Hl.
    + intros w. rewrite Hk, d_set_keys. cbn. intuition.
    + intros [|k] Hk'; cbn [nth firstn].
      * exists c. rewrite app_nil_r, !Nat.add_0_r. split; [auto|]. split; [exact Hv|]. destruct Hc as [Hc1 Hc2]. split; [apply Hp|]. split; [exact Hc1|].
        intros j Hj. unfold p, clip.
        rewrite (nth_indep _ 0 (Rmin 1 (Rmax 0 0))) by (rewrite map_length; rewrite (map2_length _ _ _ n); auto; now rewrite map_length).
        rewrite (map_nth (fun a => Rmin 1 (Rmax 0 a))). do 2 f_equal.
        rewrite (nth_map2 Rplus _ _ 0 0) by (rewrite ?map_length; lia). f_equal.
        rewrite (nth_indep _ 0 (f * 0)) by (rewrite map_length; lia). rewrite (map_nth (fun a => f * a)). f_equal.
        unfold u. rewrite (nth_indep _ 0 (-1 + (1 - -1) * rnd (r_draws s + 0)%nat)) by (rewrite map_length, seq_length; lia).
        rewrite (map_nth (fun k => -1 + (1 - -1) * rnd (r_draws s + k)%nat)). rewrite seq_nth by lia. rewrite Hs. cbn [Nat.add]. ring.
      * destruct (Hnth k ltac:(lia)) as (c' & H1 & H2 & H3). exists c'. rewrite E1 in H1, H3. rewrite app_length in H3. cbn [length] in H3.
        split; [now rewrite <- app_assoc in H1|]. split; [rewrite H2; f_equal; f_equal; f_equal; lia|].
        replace (length (hist s) + S k)%nat with (length (hist s) + 1 + k)%nat by lia. exact H3.
Qed.

(** ** Keeping the best *)
Definition kept (done : list (list R)) (d : dict) : Prop := dict_of d done /\ keys d = firstn n_keep (sd (map val done)).
Definition least (l : list R) : R := nth 0 (sd l) 0.

Lemma least_spec l : l <> [] -> In (least l) l /\ forall x, In x l -> least l <= x.
Proof.
  intros H. unfold least. assert (exists a r, sd l = a :: r) as (a & r & E).
  { destruct l as [|x l]; [congruence|]. pose proof (proj2 (sd_In (x :: l) x) (or_introl eq_refl)) as Hx. destruct (sd (x :: l)); [destruct Hx|eauto]. }
  pose proof (sd_strict l) as Hs. rewrite E in *. cbn [nth]. inversion Hs; subst. rewrite Forall_forall in *. split.
  - apply sd_In. rewrite E. now left.
  - intros x Hx. apply sd_In in Hx. rewrite E in Hx. destruct Hx as [<-|Hx]; [lra|]. specialize (H3 x Hx). lra.
Qed.

Lemma keep_run done blk c best idle s : (0 < n_keep)%nat -> done ++ blk <> [] -> dict_of c (done ++ blk) ->
  (forall w, In w (keys c) <-> In w (firstn n_keep (sd (map val done))) \/ In w (map val blk)) ->
  exists d, keep_best n_keep best idle c s = (Ok (if improves (least (map val (done ++ blk))) best then 0%nat else (1 + idle)%nat, d), s) /\ kept (done ++ blk) d.
Proof.
  intros Hk Hne [Hn Hd] Hkeys. unfold keep_best. rewrite (sd_keys _ Hn).
  rewrite (sd_ext (keys c) (firstn n_keep (sd (map val done)) ++ map val blk)) by (intros x; rewrite Hkeys, in_app_iff; tauto).
  rewrite top_merge, <- map_app. set (V := map val (done ++ blk)).
  assert (V <> []) as HV by (unfold V; destruct (done ++ blk); [congruence|discriminate]).
  destruct n_keep as [|nk] eqn:Ek; [lia|]. rewrite <- Ek in *.
  assert (exists r, firstn n_keep (sd V) = least V :: r) as (r & E).
  { unfold least. pose proof (least_spec V HV) as [Hin _]. unfold least in Hin. apply sd_In in Hin. rewrite Ek. destruct (sd V); [destruct Hin|]. cbn. eauto. }
  rewrite E. cbn [ret]. eexists. split; [reflexivity|].
  assert (forall v, In v (firstn n_keep (sd V)) -> In v (keys c)) as Hin.
  { intros v Hv. rewrite top_In in Hv. destruct Hv as [Hv Hr]. apply Hkeys. unfold V in Hv. rewrite map_app in Hv. apply in_app_iff in Hv as [Hv|Hv]; [|auto].
    left. rewrite top_In. split; [auto|]. eapply Nat.le_lt_trans; [|exact Hr]. apply rank_incl. unfold V. rewrite map_app. intros z Hz. apply in_or_app. now left. }
  rewrite <- E. assert (keys (map (fun v => (v, d_get c v)) (firstn n_keep (sd V))) = firstn n_keep (sd V)) as EK by (unfold keys; rewrite map_map; apply map_id).
  split; [|exact EK]. split.
  - rewrite EK. apply strict_nodup, strict_firstn, sd_strict.
  - intros v p Hp. apply in_map_iff in Hp as (w & Ew & Hw). inversion Ew; subst. apply Hd, d_get_In. auto.
Qed.

(** ** The trace *)
Definition trace (pts : list (list R)) (t : nat) : Prop := forall t' i, (t' < t)%nat -> (i < n_keep)%nat ->
  let m := (n_scan + n_keep * t' + i)%nat in let old := map val (before n_scan n_keep pts t') in
  exists c, latest val (firstn m pts) c /\ In (val c) old /\ rank old (val c) = (i * Nat.min n_keep (n_distinct old) / n_keep)%nat /\
    moved (spread ^ t') m c (nth m pts []).
Notation imp := (improved val n_scan n_keep).
Definition idles (pts : list (list R)) (t idle : nat) : Prop :=
  (idle <= t)%nat /\ (forall t', (t - idle <= t' < t)%nat -> ~ imp pts t') /\ ((idle < t)%nat -> imp pts (t - idle - 1)) /\
  forall t0, (t0 + 50 < t)%nat -> exists t', (t0 <= t' < t0 + 50)%nat /\ imp pts t'.

Lemma before_app (pts blk : list (list R)) t t' : length pts = (n_scan + n_keep * t)%nat -> (t' <= t)%nat -> before n_scan n_keep (pts ++ blk) t' = before n_scan n_keep pts t'.
Proof.
  intros Hl Ht. unfold before. rewrite firstn_app. replace (n_scan + n_keep * t' - length pts)%nat with 0%nat by nia. cbn. apply app_nil_r.
Qed.
Lemma block_app (pts blk : list (list R)) t t' : length pts = (n_scan + n_keep * t)%nat -> (t' < t)%nat -> block n_scan n_keep (pts ++ blk) t' = block n_scan n_keep pts t'.
Proof.
  intros Hl Ht. unfold block. rewrite skipn_app. replace (n_scan + n_keep * t' - length pts)%nat with 0%nat by nia. rewrite firstn_app, skipn_length.
  replace (n_keep - (length pts - (n_scan + n_keep * t')))%nat with 0%nat by nia. cbn. apply app_nil_r.
Qed.
Lemma block_last (pts blk : list (list R)) t : length pts = (n_scan + n_keep * t)%nat -> length blk = n_keep -> block n_scan n_keep (pts ++ blk) t = blk.
Proof.
  intros Hl Hb. unfold block. rewrite <- Hl, skipn_app, skipn_all, Nat.sub_diag, <- Hb. cbn. apply firstn_all.
Qed.
Lemma before_all (pts : list (list R)) t : length pts = (n_scan + n_keep * t)%nat -> before n_scan n_keep pts t = pts.
Proof. intros H. unfold before. rewrite <- H. apply firstn_all. Qed.
Lemma imp_app pts blk t t' : length pts = (n_scan + n_keep * t)%nat -> (t' < t)%nat -> imp (pts ++ blk) t' <-> imp pts t'.
Proof. intros Hl Ht. unfold improved. rewrite (before_app _ _ _ _ Hl), (block_app _ _ _ _ Hl) by lia. reflexivity. Qed.
Lemma imp_last pts blk t : length pts = (n_scan + n_keep * t)%nat -> length blk = n_keep -> pts <> [] ->
  imp (pts ++ blk) t <-> improves (least (map val (pts ++ blk))) (Some (least (map val pts))) = true.
Proof.
  intros Hl Hb Hne. unfold improved. rewrite (before_app _ _ _ _ Hl) by lia. rewrite (before_all _ _ Hl), (block_last _ _ _ Hl Hb).
  cbn [improves]. rewrite Rltb_true.
  destruct (least_spec (map val pts)) as [H1 H2]; [destruct pts; [congruence|discriminate]|].
  destruct (least_spec (map val (pts ++ blk))) as [H3 H4]; [destruct pts; [congruence|discriminate]|]. split.
  - intros (p & Hp & Hq). apply in_map_iff in H1 as (q & E & Hin). rewrite <- E. specialize (Hq q Hin).
    assert (In (val p) (map val (pts ++ blk))) as Hv by (apply in_map, in_or_app; now right). specialize (H4 _ Hv). lra.
  - intros Hlt. apply in_map_iff in H3 as (p & E & Hp). exists p. apply in_app_iff in Hp as [Hp|Hp].
    + exfalso. apply (in_map val) in Hp. specialize (H2 _ Hp). lra.
    + split; [auto|]. intros q Hq. apply (in_map val) in Hq. specialize (H2 _ Hq). lra.
Qed.

Lemma trace_app pts blk t : length pts = (n_scan + n_keep * t)%nat -> length blk = n_keep -> trace pts t ->
  (forall i, (i < n_keep)%nat -> exists c, latest val (pts ++ firstn i blk) c /\ In (val c) (map val pts) /\
     rank (map val pts) (val c) = (i * Nat.min n_keep (n_distinct (map val pts)) / n_keep)%nat /\ moved (spread ^ t) (length pts + i) c (nth i blk [])) ->
  trace (pts ++ blk) (S t).
Proof.
  intros Hl Hb Ht Hnew t' i Ht' Hi m old. destruct (Nat.eq_dec t' t) as [->|Hne].
  - destruct (Hnew i Hi) as (c & H1 & H2 & H3 & H4). exists c. unfold old. rewrite (before_app _ _ _ _ Hl) by lia. rewrite (before_all _ _ Hl).
    unfold m. rewrite <- Hl. rewrite firstn_app, firstn_all2 by lia. replace (length pts + i - length pts)%nat with i by lia.
    rewrite app_nth2 by lia. replace (length pts + i - length pts)%nat with i by lia. auto.
  - destruct (Ht t' i ltac:(lia) Hi) as (c & H1 & H2 & H3 & H4). fold m in H1, H4. exists c. unfold old. rewrite (before_app _ _ _ _ Hl) by lia.
    split; [|split; [auto|split; [auto|]]].
    + rewrite firstn_app. assert (m - length pts = 0)%nat as -> by (unfold m; nia). cbn [firstn]. rewrite app_nil_r. exact H1.
    + rewrite app_nth1; [exact H4|]. unfold m. nia.
Qed.

Lemma idles_app pts blk t idle : length pts = (n_scan + n_keep * t)%nat -> length blk = n_keep -> pts <> [] -> (idle < 50)%nat -> idles pts t idle ->
  idles (pts ++ blk) (S t) (if improves (least (map val (pts ++ blk))) (Some (least (map val pts))) then 0%nat else (1 + idle)%nat).
Proof.
  intros Hl Hb Hne Hi (H1 & H2 & H3 & H4). pose proof (imp_last pts blk t Hl Hb Hne) as HL.
  assert (forall t0, (t0 + 50 < S t)%nat -> exists t', (t0 <= t' < t0 + 50)%nat /\ imp (pts ++ blk) t') as W.
  { intros t0 Ht0. destruct (Nat.eq_dec (t0 + 50) t) as [E|].
    - exists (t - idle - 1)%nat. split; [lia|]. apply (imp_app _ _ _ _ Hl); [lia|]. apply H3. lia.
    - destruct (H4 t0 ltac:(lia)) as (t' & Ht' & Hi'). exists t'. split; [auto|]. apply (imp_app _ _ _ _ Hl); [lia|auto]. }
  destruct (improves _ _) eqn:E.
  - split; [lia|]. split; [intros; lia|]. split; [|exact W]. intros _. replace (S t - 0 - 1)%nat with t by lia. now apply HL.
  - split; [lia|]. split; [|split; [|exact W]].
    + intros t' Ht'. destruct (Nat.eq_dec t' t) as [->|]; [rewrite HL; discriminate|]. rewrite (imp_app _ _ _ _ Hl) by lia. apply H2. lia.
    + intros Hlt. replace (S t - (1 + idle) - 1)%nat with (t - idle - 1)%nat by lia. apply (imp_app _ _ _ _ Hl); [lia|]. apply H3. lia.
Qed.

Lemma kept_values done d : (0 < n_keep)%nat -> kept done d -> sort_keys (keys d) = firstn n_keep (sd (map val done)).
Proof.
  intros Hk [[Hn _] E]. rewrite (sd_keys _ Hn). apply strict_unique; [apply sd_strict|apply strict_firstn, sd_strict|]. intros x. rewrite sd_In, E. tauto.
Qed.

Lemma loop_run fuel : forall t idle cands s best, (0 < n_keep)%nat -> length (hist s) = (n_scan + n_keep * t)%nat -> hist s <> [] -> counted s ->
  kept (hist s) cands -> trace (hist s) t -> idles (hist s) t idle -> (idle <= 50)%nat ->
  (forall i, (i < n_scan)%nat -> nth i (hist s) [] = map (fun j => rnd (n * i + j)%nat) (seq 0 n)) ->
  match sa_loop rnd obj n n_scan n_keep spread fuel idle best (spread ^ t) cands s with
  | (Ok tt, s') => exists T, length (hist s') = (n_scan + n_keep * T)%nat /\ trace (hist s') T /\ idles (hist s') T 50 /\
      (forall i, (i < n_scan)%nat -> nth i (hist s') [] = map (fun j => rnd (n * i + j)%nat) (seq 0 n))
  | (Err e, _) => e = OutOfFuel
  end.
Proof.
  induction fuel as [|fuel IH]; intros t idle cands s best Hk Hl Hne Hs Hc Ht Hi Hi50 Hsc; cbn [sa_loop]; [reflexivity|].
  destruct (idle <? 50)%nat eqn:E50.
  2:{ apply Nat.ltb_ge in E50. replace idle with 50%nat in Hi by lia. cbn [ret]. exists t. auto. }
  apply Nat.ltb_lt in E50. destruct cands as [|e0 c0].
  { exfalso. destruct Hc as [_ Hc]. cbn in Hc. destruct (least_spec (map val (hist s))) as [Hin _]; [destruct (hist s); [congruence|discriminate]|].
    unfold least in Hin. apply sd_In in Hin. destruct (sd (map val (hist s))); [destruct Hin|]. destruct n_keep; [lia|discriminate]. }
  set (cands := e0 :: c0) in *. pose proof (kept_values _ _ Hk Hc) as EK.
  set (vs := firstn n_keep (sd (map val (hist s)))) in *.
  assert (length vs = Nat.min n_keep (n_distinct (map val (hist s)))) as Elen by (unfold vs; now rewrite firstn_length, sd_length).
  assert (vs <> []) as Hvs by (destruct Hc as [_ Hc]; fold vs in Hc; rewrite <- Hc; discriminate).
  unfold evolve. rewrite EK.
  destruct (evolve_run (spread ^ t) vs Hvs n_keep 0 cands s eq_refl Hs (proj1 Hc)) as (d' & blk & s' & E & Hh & Hlb & Hs' & Hd' & Hkeys & Hnth).
  { destruct Hc as [_ Hc]. fold vs in Hc. rewrite Hc. apply incl_refl. }
  unfold bind at 1. cbv zeta in E |- *. rewrite E. clear E.
  assert (nth 0 vs 0 = least (map val (hist s))) as E0 by (unfold vs, least; destruct n_keep; [lia|]; destruct (sd (map val (hist s))); reflexivity).
  rewrite E0. rewrite Hh in Hd'. destruct Hc as [Hc EC]. fold vs in EC. rewrite EC in Hkeys.
  destruct (keep_run (hist s) blk d' (Some (least (map val (hist s)))) idle s' Hk) as (d2 & E2 & Hk2); auto.
  { intros En. apply app_eq_nil in En. tauto. }
  unfold bind at 1. rewrite E2. cbn [fst snd]. replace (spread ^ t * spread) with (spread ^ S t) by (cbn; ring).
  apply IH; auto.
  - rewrite Hh, app_length. nia.
  - rewrite Hh. intros En. apply app_eq_nil in En. tauto.
  - now rewrite Hh.
  - rewrite Hh. apply trace_app; auto. intros i Hin. destruct (Hnth i Hin) as (c & H1 & H2 & H3). exists c. split; [auto|]. cbn [Nat.add] in H2.
    assert (i * length vs / n_keep < length vs)%nat as Hlt by (apply scaled_index; [auto|destruct vs; [congruence|cbn; lia]]).
    rewrite <- Elen. rewrite H2. split; [|split; [|exact H3]].
    + assert (In (nth (i * length vs / n_keep) vs 0) vs) as Hv by now apply nth_In. unfold vs at 3 in Hv. rewrite top_In in Hv. tauto.
    + unfold vs at 2. rewrite nth_firstn_lt by lia. apply rank_nth. lia.
  - rewrite Hh. apply idles_app; auto.
  - destruct (improves _ _); lia.
  - intros i Hin. rewrite Hh, app_nth1 by nia. auto.
Qed.

Lemma solve_run fuel : match sa_solve rnd obj n n_scan n_keep spread fuel start_state with
  | (Ok tt, s') => exists T, (50 <= T)%nat /\ length (hist s') = (n_scan + n_keep * T)%nat /\ trace (hist s') T /\ idles (hist s') T 50 /\
      (forall i, (i < n_scan)%nat -> nth i (hist s') [] = map (fun j => rnd (n * i + j)%nat) (seq 0 n))
  | (Err e, _) => (0 < n_scan)%nat -> (0 < n_keep)%nat -> e = OutOfFuel
  end.
Proof.
  unfold sa_solve. destruct fuel as [|fuel]; [cbn; auto|]. cbn [sa_loop]. change (0 <? 50)%nat with true. cbv iota.
  assert (dict_of [] (hist start_state)) as Hd0 by (split; [constructor|intros v p []]).
  destruct (scan_run (seq 0 n_scan) [] start_state) as (d & blk & s & E & Hh & Hlb & Hs & Hd & Hkeys & Hnth); auto.
  { unfold counted. cbn. lia. }
  unfold bind at 1, scan. rewrite E. clear E. cbn in Hh. rewrite seq_length in *.
  destruct (Nat.eq_dec n_keep 0) as [Ek|Hk].
  { unfold bind at 1, keep_best. rewrite Ek. cbn. intros _ H. lia. }
  destruct (Nat.eq_dec n_scan 0) as [En|Hn].
  { assert (keys d = []) as Ed. { destruct (keys d) as [|w ws] eqn:Ew; [auto|]. destruct (proj1 (Hkeys w) (or_introl eq_refl)) as [[]|Hw].
      rewrite En in Hlb. destruct blk; [destruct Hw|discriminate]. }
    unfold bind at 1, keep_best. rewrite Ed. rewrite firstn_nil. cbn. intros H. lia. }
  destruct (keep_run [] blk d None 0 s) as (d2 & E2 & Hk2); auto.
  { lia. } { intros En. apply (f_equal (@length _)) in En. cbn in En. lia. } { cbn. now rewrite <- Hh. }
  { intros w. rewrite Hkeys. cbn. rewrite firstn_nil. reflexivity. }
  unfold bind at 1. rewrite E2. cbn [improves fst snd]. cbn [app] in Hk2. rewrite <- Hh in *.
  pose proof (loop_run fuel 0 0 d2 s None ltac:(lia)) as HL. rewrite pow_O in HL.
  assert (hist s <> []) as Hne by (intros En; apply (f_equal (@length _)) in En; cbn in En; lia).
  specialize (HL ltac:(lia) Hne Hs Hk2 ltac:(intros t' i Ht'; lia)).
  assert (idles (hist s) 0 0) as HI by (split; [lia|]; split; [intros; lia|]; split; intros; lia). specialize (HL HI ltac:(lia)).
  assert (forall i, (i < n_scan)%nat -> nth i (hist s) [] = map (fun j => rnd (n * i + j)%nat) (seq 0 n)) as HS by (intros i Hi'; rewrite Hnth by auto; reflexivity).
  specialize (HL HS). destruct (sa_loop _ _ _ _ _ _ _ _ _ _ _ _) as [[[]|e] s'].
  - destruct HL as (T & H1 & H2 & H3 & H4). exists T. split; [apply H3|auto].
  - auto.
Qed.
End Rounds.

(** ** Conclusions *)
Lemma annealing_trace rnd obj val n n_scan n_keep spread fuel : (forall k, 0 <= rnd k < 1) ->
  (forall p, length p = n -> Forall (fun u => 0 <= u <= 1) p -> obj p = Ok (val p)) ->
  let r := sa_solve rnd obj n n_scan n_keep spread fuel start_state in
  fst r = Ok tt -> exists T, annealing_run rnd val n n_scan n_keep spread (points r) T.
Proof.
  intros Hrnd Hobj r Hr. pose proof (solve_run rnd obj val n n_scan n_keep spread Hrnd (fun p Hp => Hobj p (proj1 Hp) (proj2 Hp)) fuel) as H.
  fold r in H. unfold points. destruct r as [[u|e] s]; [|discriminate]. cbn [snd]. destruct u. destruct H as (T & H1 & H2 & H3 & (_ & H5 & _ & H6) & H7).
  exists T. exact (conj H1 (conj H2 (conj H7 (conj H3 (conj H5 H6))))).
Qed.

Lemma clip_near c a r : 0 <= c <= 1 -> Rabs a <= r -> Rabs (Rmin 1 (Rmax 0 (c + a)) - c) <= r.
Proof.
  intros Hc Ha. assert (- r <= a <= r) as Hb by (split; [|pose proof (Rle_abs a); lra]; pose proof (Rle_abs (- a)) as H; rewrite Rabs_Ropp in H; lra).
  apply Rabs_le. unfold Rmin, Rmax. destruct (Rle_dec 0 (c + a)); destruct (Rle_dec 1 _); lra.
Qed.

Lemma annealing_near rnd obj val n n_scan n_keep spread fuel : (forall k, 0 <= rnd k < 1) ->
  (forall p, length p = n -> Forall (fun u => 0 <= u <= 1) p -> obj p = Ok (val p)) ->
  let r := sa_solve rnd obj n n_scan n_keep spread fuel start_state in
  fst r = Ok tt -> forall t i, (i < n_keep)%nat -> (n_scan + n_keep * t + i < length (points r))%nat ->
  let m := (n_scan + n_keep * t + i)%nat in let old := map val (before n_scan n_keep (points r) t) in
  exists c, In c (firstn m (points r)) /\ (rank old (val c) <= i)%nat /\ near (Rabs spread ^ t) c (nth m (points r) []).
Proof.
  intros Hrnd Hobj r Hr t i Hi Hlt m old. destruct (annealing_trace rnd obj val n n_scan n_keep spread fuel Hrnd Hobj Hr) as (T & H1 & H2 & H3 & H4 & _).
  assert (t < T)%nat as Ht by (fold r in H2; rewrite H2 in Hlt; nia).
  destruct (H4 t i Ht Hi) as (c & G1 & G2 & G3 & G4 & G5 & G6). fold r m in G1, G4, G6. apply latest_In in G1. exists c. split; [exact G1|]. split.
  - unfold old, r. rewrite G3. apply Nat.div_le_upper_bound; [lia|]. rewrite Nat.mul_comm. apply Nat.mul_le_mono_r. lia.
  - split; [congruence|]. intros j. destruct (Nat.lt_ge_cases j n) as [Hj|Hj].
    + fold r. rewrite G6 by auto. apply clip_near.
      * assert (In c (points r)) as Hin by (rewrite <- (firstn_skipn m (points r)); apply in_or_app; now left).
        destruct (sa_points rnd obj n n_scan n_keep spread fuel Hrnd c Hin) as [_ Hc]. rewrite Forall_forall in Hc. apply Hc, nth_In. lia.
      * rewrite Rabs_mult, <- RPow_abs. rewrite <- (Rmult_1_r (Rabs spread ^ t)) at 2. apply Rmult_le_compat_l; [apply pow_le, Rabs_pos|].
        specialize (Hrnd (n * m + j)%nat). apply Rabs_le. lra.
    + fold r. rewrite !nth_overflow by lia. rewrite Rminus_0_r, Rabs_R0. apply pow_le, Rabs_pos.
Qed.

(** Nothing is found in the rounds that do not improve. *)
Lemma annealing_best rnd obj val n n_scan n_keep spread fuel : (forall k, 0 <= rnd k < 1) ->
  (forall p, length p = n -> Forall (fun u => 0 <= u <= 1) p -> obj p = Ok (val p)) ->
  let r := sa_solve rnd obj n n_scan n_keep spread fuel start_state in
  fst r = Ok tt -> (n_keep * 50 <= length (points r))%nat /\
  forall p, In p (points r) -> exists q, In q (firstn (length (points r) - n_keep * 50) (points r)) /\ val q <= val p.
Proof.
  intros Hrnd Hobj r Hr. destruct (annealing_trace rnd obj val n n_scan n_keep spread fuel Hrnd Hobj Hr) as (T & H1 & H2 & _ & _ & H5 & _).
  fold r in H2, H5. set (pts := points r) in *. split; [nia|].
  assert (forall k, (k <= 50)%nat -> forall p, In p (before n_scan n_keep pts (T - 50 + k)) -> exists q, In q (before n_scan n_keep pts (T - 50)) /\ val q <= val p) as G.
  { induction k as [|k IH]; intros Hk p Hp.
    - exists p. rewrite Nat.add_0_r in Hp. split; [auto|lra].
    - unfold before in Hp. replace (n_scan + n_keep * (T - 50 + S k))%nat with (n_scan + n_keep * (T - 50 + k) + n_keep)%nat in Hp by lia.
      rewrite <- (firstn_skipn (n_scan + n_keep * (T - 50 + k)) pts) in Hp. rewrite firstn_app in Hp. apply in_app_iff in Hp as [Hp|Hp].
      + apply IH; [lia|]. rewrite firstn_firstn in Hp. now replace (Nat.min _ _) with (n_scan + n_keep * (T - 50 + k))%nat in Hp by lia.
      + assert (In p (block n_scan n_keep pts (T - 50 + k))) as Hb.
        { unfold block. rewrite firstn_length in Hp. replace (Nat.min _ (length pts)) with (n_scan + n_keep * (T - 50 + k))%nat in Hp by nia.
          now replace (n_scan + n_keep * (T - 50 + k) + n_keep - (n_scan + n_keep * (T - 50 + k)))%nat with n_keep in Hp by lia. }
        assert (exists q, In q (before n_scan n_keep pts (T - 50 + k)) /\ val q <= val p) as (q & Hq & Hle).
        { destruct (Classical_Prop.classic (exists q, In q (before n_scan n_keep pts (T - 50 + k)) /\ val q <= val p)) as [|Hno]; [auto|exfalso].
          apply (H5 (T - 50 + k)%nat ltac:(lia)). exists p. split; [exact Hb|]. intros q Hq. apply Rnot_le_lt. intros Hle. apply Hno. eauto. }
        destruct (IH ltac:(lia) q Hq) as (q' & Hq' & Hle'). exists q'. split; [auto|lra]. }
  intros p Hp. destruct (G 50%nat (le_n _) p) as (q & Hq & Hle).
  - unfold before. replace (T - 50 + 50)%nat with T by lia. rewrite <- H2, firstn_all. exact Hp.
  - exists q. split; [|auto]. unfold before in Hq. replace (length pts - n_keep * 50)%nat with (n_scan + n_keep * (T - 50))%nat by nia. exact Hq.
Qed.

Lemma annealing_objective {P} (L : lik R P R) prec srt X y n_dim lvl prior rows ns n : sorts Rleb srt -> (0 < n)%nat ->
  exists bound, forall rnd n_scan n_keep spread fuel, (forall k, 0 <= rnd k < 1) -> (0 < n_scan)%nat -> (0 < n_keep)%nat -> (bound <= fuel)%nat ->
  let obj := cube_obj L prec srt X y n_dim lvl prior rows ns in
  let r := sa_solve rnd obj n n_scan n_keep spread fuel start_state in
  fst r = Ok tt /\ exists T, (T <= bound)%nat /\ annealing_run rnd (fun p => match obj p with Ok v => v | Err _ => 0 end) n n_scan n_keep spread (points r) T.
Proof.
  intros Hs Hn. destruct (sa_terminates L prec srt X y n_dim lvl prior rows ns n Hs Hn) as (bound & H). exists bound.
  intros rnd n_scan n_keep spread fuel Hrnd Hsc Hk Hf obj r. destruct (H rnd n_scan n_keep spread fuel Hrnd Hsc Hk Hf) as [H1 H2]. split; [exact H1|].
  destruct (annealing_trace rnd obj (fun p => match obj p with Ok v => v | Err _ => 0 end) n n_scan n_keep spread fuel Hrnd) as (T & HT); [|exact H1|].
  - intros p Hp Hc. destruct (cube_obj_values L prec srt X y n_dim lvl prior rows ns p Hs) as (v & Ev & _); auto.
    + intros ->. cbn in Hp. lia.
    + fold obj in Ev. now rewrite Ev.
  - exists T. split; [|exact HT]. destruct HT as (_ & HT & _). fold obj in H2. rewrite HT in H2. nia.
Qed.
