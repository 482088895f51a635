(** * LikExt: two target models that agree on all sublists of the data give the same fit. *)
From Coq Require Import Permutation Sorted.
From Verif Require Import Prelude Lists Tree Perp Spec PruneProofs FitProofs OptProofs OptFit Api ApiSpec ApiProofs.
Local Open Scope nat_scope.

Section LikExt.
Context {A V Y Y' P S : Type}.
Variable F : feat A V.
Variable L : lik Y P S.
Variable L' : lik Y' P S.

(** Agreement on the targets [y] and [y'] of [n] rows. *)
Record lik_agree (y : nat -> Y) (y' : nat -> Y') (n : nat) : Prop := {
  la_prior : forall pa m d, l_prior L pa m d = l_prior L' pa m d;
  la_argmax : l_argmax L = l_argmax L';
  la_gt : forall a b, l_gt L a b = l_gt L' a b;
  la_rows : forall l, (forall i, In i l -> i < n) -> length l <= n ->
    (forall lvl p, l_no_split L lvl p (map y l) = l_no_split L' lvl p (map y' l)) /\
    (forall lvl p d ks, l_split L lvl p d (map y l) ks = l_split L' lvl p d (map y' l) ks) /\
    (forall p, l_post L p (map y l) = l_post L' p (map y' l)) /\
    (forall p, l_child_prior L p (map y l) = l_child_prior L' p (map y' l)) /\
    l_many L (map y l) = l_many L' (map y' l)
}.

Variable X : nat -> nat -> A.
Variable y : nat -> Y.
Variable y' : nat -> Y'.
Variable n : nat.
Context {NM : Type}.
Variable names : list NM.
Hypothesis Hag : lik_agree y y' n.

Lemma scan_lik lvl prior idxs ns : (forall row, In row idxs -> (forall i, In i row -> i < n) /\ length row <= n) ->
  scan F L X y lvl prior idxs ns = scan F L' X y' lvl prior idxs ns.
Proof.
  intros Hr. unfold scan.
  assert (H : forall l b, (forall d r, In (d, r) l -> In r idxs) ->
     fold_left (scan_dim F L X y lvl prior (length idxs)) l b =
     fold_left (scan_dim F L' X y' lvl prior (length idxs)) l b).
  { induction l as [|[d r] l IH]; intros b Hl; cbn [fold_left]; auto.
    assert (Hin : In r idxs) by (apply (Hl d r); left; auto).
    destruct (Hr r Hin) as [Hr1 Hr2].
    destruct (la_rows _ _ _ Hag r Hr1 Hr2) as (_ & E & _).
    assert (Es : scan_dim F L X y lvl prior (length idxs) b (d, r) = scan_dim F L' X y' lvl prior (length idxs) b (d, r)).
    { rewrite !scan_dim_eq. unfold dim_scores, gather. rewrite E, (la_argmax _ _ _ Hag).
      destruct (dim_positions F X r d); auto. destruct (nth_error _ _); auto. destruct (nth_error _ _); auto.
      rewrite (la_gt _ _ _ Hag). auto. }
    rewrite Es. apply IH. intros d' r' Hd'. apply (Hl d' r'). right; auto. }
  apply H. intros d r Hin. apply combine_seq_In in Hin. destruct Hin as [_ E]. eapply nth_error_In; eauto.
Qed.

Lemma pfit_lik : forall fuel lvl pa rows idxs,
  wf_idx rows idxs -> (forall i, In i rows -> i < n) -> length rows <= n ->
  pfit F L X y names fuel lvl pa idxs = pfit F L' X y' names fuel lvl pa idxs.
Proof.
  induction fuel as [|fuel IH]; intros lvl pa rows idxs Hwf Hn Hlen; auto.
  assert (Hrows : forall row, In row idxs -> (forall i, In i row -> i < n) /\ length row <= n).
  { intros row Hin. destruct (wf_idx_rows Hwf Hin) as [Hp _]. split.
    - intros i Hi. apply Hn. eapply Permutation_in; eauto.
    - rewrite (Permutation_length Hp). auto. }
  destruct idxs as [|row0 rest] eqn:Eidx; auto.
  cbn [pfit]. rewrite <- Eidx in *.
  assert (Hin0 : In row0 idxs) by (rewrite Eidx; left; auto).
  rewrite <- (la_prior _ _ _ Hag).
  set (prior := l_prior L pa (length row0) (length idxs)).
  destruct (Hrows row0 Hin0) as [H01 H02].
  destruct (la_rows _ _ _ Hag row0 H01 H02) as (Ens & _ & Epost & _).
  unfold gather. rewrite <- Ens, <- Epost.
  set (ns := l_no_split L lvl prior (map y row0)).
  rewrite <- (scan_lik lvl prior idxs ns Hrows).
  destruct (scan_cases F L X y lvl prior idxs ns) as [Hb|Hb].
  - rewrite Hb. reflexivity.
  - destruct (candidate_facts F L X y _ _ _ rows _ Hwf Hb) as (dim & row & k & Hrow & Hd & Hi & Hk & Hr & Hp & Hnd).
    rewrite Hd, Hi, !Nat2Z.id.
    replace (0 <? Z.of_nat k)%Z with true by (symmetry; apply Z.ltb_lt; lia).
    destruct (nth_error names dim) as [nm|]; auto.
    rewrite (nth_error_nth idxs dim [] Hrow).
    destruct (firstn_facts row k rows Hp Hnd) as (N1 & I1 & N2 & I2).
    destruct (sub_indices_ok rows idxs (firstn k row) Hwf N1 I1) as [E1 W1].
    destruct (sub_indices_ok rows idxs (skipn k row) Hwf N2 I2) as [E2 W2].
    rewrite E1, E2. cbn [rbind].
    apply nth_error_In in Hrow as Hin. destruct (Hrows row Hin) as [Hr1 Hr2].
    assert (G1 : forall i, In i (firstn k row) -> i < n) by (intros; apply Hn, I1; auto).
    assert (G2 : forall i, In i (skipn k row) -> i < n) by (intros; apply Hn, I2; auto).
    assert (L1 : length (firstn k row) <= n) by (rewrite firstn_length; lia).
    assert (L2 : length (skipn k row) <= n) by (rewrite skipn_length; lia).
    destruct (la_rows _ _ _ Hag _ G1 L1) as (_ & _ & P1 & C1 & M1).
    destruct (la_rows _ _ _ Hag _ G2 L2) as (_ & _ & P2 & C2 & M2).
    rewrite <- P1, <- P2, <- C1, <- C2, <- M1, <- M2.
    rewrite (IH _ _ _ _ W1 G1 L1), (IH _ _ _ _ W2 G2 L2). reflexivity.
Qed.
End LikExt.

Theorem fit_lik {A V Y Y' P S} (F : feat A V) (L : lik Y P S) (L' : lik Y' P S) same do_prune lvl pa
    (d : tset A Y) (g : Y -> Y') :
  permutes (f_argsort F) -> tset_ok d -> lik_agree L L' (ts_y d) (fun i => g (ts_y d i)) (ts_n d) ->
  perp_fit F L same do_prune lvl pa d = perp_fit F L' same do_prune lvl pa (map_target g d).
Proof.
  intros Hp (Hn & Hn64 & Hdim & Hnm) Hag. unfold perp_fit, pfit_root, map_target. cbn [ts_n ts_dim ts_X ts_y ts_names].
  destruct (root_indices_wf' F (ts_X d) (ts_n d) (ts_dim d) Hp Hn64) as [Hwf Hlen]; [lia|].
  rewrite (pfit_lik F L L' (ts_X d) (ts_y d) (fun i => g (ts_y d i)) (ts_n d) (ts_names d) Hag _ _ _ _ _ Hwf).
  - reflexivity.
  - intros i Hi. apply in_seq in Hi. lia.
  - rewrite seq_length. auto.
Qed.
