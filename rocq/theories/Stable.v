(** * Stable: trees fitted with inexact evidence.

    A fit whose computed scores are within [tau] of the exact ones returns a tree whose splits are best up to
    [2 tau] (down to the depth to which the scores are accurate); where the exact decisions are clear by more than that, it is the exact tree. *)
From Coq Require Import Permutation Sorted.
From Verif Require Import Prelude Lists Tree Perp RealOps Spec FitProofs OptSpec OptProofs OptFit OptNodes.
Local Open Scope nat_scope.

(** All levels in the tree are beyond [depth]. *)
Fixpoint deep {D S P} (depth : nat) (t : tree D S P) : Prop :=
  match t with
  | Leaf i => depth < i_level i
  | Split i _ _ _ c1 c2 => depth < i_level i /\ deep depth c1 /\ deep depth c2
  end.

Section Spec.
Context {A V Y P S' P' NM : Type}.
Variables leb gap : A -> A -> bool.
Variable mid : A -> A -> V.
Variable T : tgt Y P R.
Variable X : nat -> nat -> A.
Variable y : nat -> Y.
Variable names : list NM.
Variable n_dim : nat.
Variable val : S' -> R.                   (* the number that a computed score stands for *)
Variable ok : S' -> Prop.                 (* computed scores that are numbers *)
Variable tau : R.
Variable depth : nat.                    (* levels up to which the scores are accurate *)
Notation cand := (cand leb gap T X y n_dim).
Notation stop lvl p rows := (t_stop T lvl p (map y rows)).

Definition near (s' : S') (s : R) : Prop := ok s' /\ (Rabs (val s' - s) <= tau)%R.

(** A tree whose splits and leaves are best up to [2 tau]: the values compared are the exact ones, of exactly the
    rows that reach the node. *)
Inductive near_opt : nat -> P -> list nat -> tree (pdesc NM V) S' P' -> Prop :=
| near_leaf lvl p rows i :
    i_level i = lvl -> i_n_data i = length rows -> i_n_dim i = Some n_dim ->
    (forall d a b s, cand lvl p rows d a b s -> (s <= stop lvl p rows + 2 * tau)%R) ->
    near_opt lvl p rows (Leaf i)
| near_split lvl p rows i d a b s nm v_no v_best c1 c2 :
    i_level i = lvl -> i_n_data i = length rows -> i_n_dim i = Some n_dim ->
    cand lvl p rows d a b s -> near v_no (stop lvl p rows) -> near v_best s ->
    (stop lvl p rows - 2 * tau < s)%R ->
    (forall d' a' b' s', cand lvl p rows d' a' b' s' -> (s' - 2 * tau <= s)%R) ->
    nth_error names d = Some nm ->
    near_child lvl p (left_rows leb X d a rows) c1 ->
    near_child lvl p (right_rows leb X d a rows) c2 ->
    near_opt lvl p rows (Split i (mkDesc d nm (mid a b)) v_no v_best c1 c2)
| near_deep lvl p rows t : depth < lvl -> deep depth t -> near_opt lvl p rows t
with near_child : nat -> P -> list nat -> tree (pdesc NM V) S' P' -> Prop :=
| near_child_fit lvl p rows t :
    1 < length rows -> t_many T (map y rows) ->
    near_opt (lvl + 1) (t_prior T (Some (t_child_prior T p (map y rows))) (length rows) n_dim) rows t ->
    near_child lvl p rows t
| near_child_leaf lvl p rows i :
    length rows <= 1 \/ ~ t_many T (map y rows) ->
    i_level i = lvl + 1 -> i_n_data i = length rows -> i_n_dim i = None ->
    near_child lvl p rows (Leaf i).
Scheme near_opt_mind := Induction for near_opt Sort Prop
  with near_child_mind := Induction for near_child Sort Prop.
Combined Scheme near_mutind from near_opt_mind, near_child_mind.

(** A node of the exact tree whose decision is clear: no other choice comes within [2 tau]. *)
Definition clear (rows : list nat) (t : tree (pdesc NM V) R P) : Prop :=
  match t with
  | Leaf i => i_n_dim i = None \/
      let p := t_prior T (i_prior i) (length rows) n_dim in
      forall d a b s, cand (i_level i) p rows d a b s -> (s + 2 * tau <= stop (i_level i) p rows)%R
  | Split i sd v_no v_best _ _ =>
      let p := t_prior T (i_prior i) (length rows) n_dim in
      (v_no + 2 * tau < v_best)%R /\
      exists a b, sd_val sd = mid a b /\ cand (i_level i) p rows (sd_dim sd) a b v_best /\
      forall d' a' b' s', cand (i_level i) p rows d' a' b' s' -> (d', a') <> (sd_dim sd, a) -> (s' + 2 * tau < v_best)%R
  end.

End Spec.

(** Same splits, names, thresholds, levels and sample counts. *)
Inductive same_shape {D S P S' P'} : tree D S P -> tree D S' P' -> Prop :=
| shape_leaf i i' : i_level i' = i_level i -> i_n_data i' = i_n_data i -> i_n_dim i' = i_n_dim i ->
    same_shape (Leaf i) (Leaf i')
| shape_split i i' sd a b a' b' c1 c2 c1' c2' :
    i_level i' = i_level i -> i_n_data i' = i_n_data i -> i_n_dim i' = i_n_dim i ->
    same_shape c1 c1' -> same_shape c2 c2' ->
    same_shape (Split i sd a b c1 c2) (Split i' sd a' b' c1' c2').

Section Apx.
Context {A V Y P Y' P' S' NM : Type}.
Variables leb gap : A -> A -> bool.
Variable mid : A -> A -> V.
Variable F : feat A V.
Variable T : tgt Y P R.
Variable L : lik Y' P' S'.
Variable X : nat -> nat -> A.
Variable y : nat -> Y.
Variable y' : nat -> Y'.
Variable names : list NM.
Variables n n_dim depth : nat.
Variable val : S' -> R.
Variable ok : S' -> Prop.
Variable tau : R.
Variable rel : P -> P' -> Prop.           (* the prior that a computed prior stands for *)

Definition good (rows : list nat) : Prop := NoDup rows /\ rows <> [] /\ forall i, In i rows -> i < n.
Notation near := (near val ok tau).

(** The computed scores are within [tau] of the exact ones. *)
Record apx_law : Prop := {
  al_prior : forall p p' m, rel p p' -> rel (t_prior T (Some p) m n_dim) (l_prior L (Some p') m n_dim);
  al_stop : forall lvl p p' rows, rel p p' -> good rows -> lvl <= depth ->
      near (l_no_split L lvl p' (map y' rows)) (t_stop T lvl p (map y rows));
  al_cut : forall lvl p p' row ks, rel p p' -> good row -> lvl <= depth -> ks <> [] -> StronglySorted lt ks ->
      (forall k, In k ks -> 1 <= k < length row) ->
      Forall2 near (l_split L lvl p' n_dim (map y' row) ks)
        (map (fun k => t_cut T lvl p n_dim (length ks) (map y (firstn k row)) (map y (skipn k row))) ks);
  al_gt : forall a b, ok a -> ok b -> l_gt L a b = Rgtb (val a) (val b);
  al_argmax : forall l, Forall ok l -> l_argmax L l = argmax Rgtb (map val l);
  al_child : forall p p' rows, rel p p' -> good rows ->
      rel (t_child_prior T p (map y rows)) (l_child_prior L p' (map y' rows));
  al_many : forall rows, good rows -> l_many L (map y' rows) = true <-> t_many T (map y rows)
}.

Hypothesis HF : feat_law F leb gap mid.
Hypothesis HT : tgt_perm T.
Hypothesis HA : apx_law.
Notation cand := (cand leb gap T X y n_dim).
Notation sc := (sc F T X y).
Notation near_opt := (near_opt (P' := P') leb gap mid T X y names n_dim val ok tau depth).
Notation near_child := (near_child (P' := P') leb gap mid T X y names n_dim val ok tau depth).

Lemma Rgtb_irr a : Rgtb a a = false.
Proof. unfold Rgtb, Rltb. destruct (Rlt_dec a a); auto. lra. Qed.
Lemma Rgtb_t a b : Rgtb a b = true <-> (a > b)%R.
Proof. unfold Rgtb, Rltb. destruct (Rlt_dec b a); split; intros; auto; try discriminate; lra. Qed.
Lemma Rgtb_tr a b c : Rgtb a b = true -> Rgtb b c = true -> Rgtb a c = true.
Proof. rewrite !Rgtb_t. lra. Qed.
Lemma Rgtb_nt a b c : Rgtb a b = false -> Rgtb b c = false -> Rgtb a c = false.
Proof. unfold Rgtb, Rltb. repeat destruct Rlt_dec; auto; try discriminate. lra. Qed.
Lemma Rgtb_f a b : Rgtb a b = false <-> (a <= b)%R.
Proof. unfold Rgtb, Rltb. destruct (Rlt_dec b a); split; intros; auto; try discriminate; lra. Qed.

Lemma abs_le_inv x t : (Rabs x <= t)%R -> (- t <= x <= t)%R.
Proof. unfold Rabs. destruct (Rcase_abs x); lra. Qed.
Lemma Forall2_len {B C} (Q : B -> C -> Prop) l m : Forall2 Q l m -> length l = length m.
Proof. induction 1; simpl; congruence. Qed.
Lemma Forall2_nth_r {B C} (Q : B -> C -> Prop) l m : Forall2 Q l m -> forall j c, nth_error m j = Some c ->
  exists b, nth_error l j = Some b /\ Q b c.
Proof. induction 1; intros [|j] c E; simpl in *; try discriminate; eauto. injection E as <-. eauto. Qed.
Lemma Forall2_nth_l {B C} (Q : B -> C -> Prop) l m : Forall2 Q l m -> forall j b, nth_error l j = Some b ->
  exists c, nth_error m j = Some c /\ Q b c.
Proof. induction 1; intros [|j] c E; simpl in *; try discriminate; eauto. injection E as <-. eauto. Qed.

Lemma good_perm rows rows' : Permutation rows rows' -> good rows -> good rows'.
Proof.
  intros Hp (H1 & H2 & H3). split; [eapply Permutation_NoDup; eauto|]. split.
  - intros ->. apply Permutation_sym, Permutation_nil in Hp. auto.
  - intros i Hi. apply H3. eapply Permutation_in; [symmetry; exact Hp|auto].
Qed.

Section Scan.
Variables (lvl : nat) (p : P) (p' : P') (rows : list nat) (idxs : list (list nat)) (ns : S').
Hypothesis Hwf : wf_idx rows idxs.
Hypothesis Hlen : length idxs = n_dim.
Hypothesis Hp : rel p p'.
Hypothesis Hg : good rows.
Hypothesis Hlvl : lvl <= depth.
Hypothesis Hns : ok ns.

Lemma row_good row : In row idxs -> good row /\ length row = length rows.
Proof.
  intros Hin. destruct (wf_idx_rows Hwf Hin) as [Hpr _]. split; [|apply Permutation_length; auto].
  eapply good_perm; [symmetry; exact Hpr|auto].
Qed.

Lemma scores_near d row : nth_error idxs d = Some row -> dim_positions F X row d <> [] ->
  Forall2 near (dim_scores F L X y' lvl p' n_dim row d) (map (sc lvl p n_dim row d) (dim_positions F X row d)).
Proof.
  intros Er Hne. destruct (row_good row (nth_error_In _ _ Er)) as [Hgr Hl].
  unfold dim_scores, gather. apply (al_cut HA); auto.
  - apply positions_sorted.
  - intros k Hk. unfold dim_positions in Hk. apply split_positions_range in Hk. unfold gather in Hk.
    rewrite map_length in Hk. auto.
Qed.

Definition apx_inv (m : nat) (b : best S') : Prop :=
  ok (b_score b) /\ (val ns <= val (b_score b))%R /\
  (forall d row k, d < m -> nth_error idxs d = Some row -> In k (dim_positions F X row d) ->
     (sc lvl p n_dim row d k <= val (b_score b) + tau)%R) /\
  (b = mkBest ns (-1) (-1) \/
   exists d row k, d < m /\ nth_error idxs d = Some row /\ In k (dim_positions F X row d) /\
     b_idx b = Z.of_nat k /\ b_dim b = Z.of_nat d /\ near (b_score b) (sc lvl p n_dim row d k) /\
     (val ns < val (b_score b))%R).

Lemma apx_step m row b : nth_error idxs m = Some row -> apx_inv m b ->
  apx_inv (S m) (scan_dim F L X y' lvl p' n_dim b (m, row)).
Proof.
  intros Em (H1 & H2 & H3 & H4). rewrite scan_dim_eq.
  destruct (dim_positions F X row m) as [|k0 ks0] eqn:Epos.
  - repeat split; auto.
    + intros d r k Hd Er Hk. destruct (Nat.eq_dec d m) as [->|]; [|apply H3; auto; lia].
      rewrite Em in Er. injection Er as <-. rewrite Epos in Hk. destruct Hk.
    + destruct H4 as [H4|(d & r & k & Hd & H4)]; auto. right. exists d, r, k. split; [lia|auto].
  - rewrite <- Epos.
    assert (Hne : dim_positions F X row m <> []) by (rewrite Epos; discriminate).
    pose proof (scores_near m row Em Hne) as Hs.
    set (ks := dim_positions F X row m) in *. set (l := dim_scores F L X y' lvl p' n_dim row m) in *.
    assert (Hok : Forall ok l).
    { clear - Hs. induction Hs as [|a b l l' H _ IH]; constructor; auto. apply H. }
    assert (Hl : map val l <> []).
    { pose proof (Forall2_len _ _ _ Hs) as E. rewrite map_length in E. destruct l; [|discriminate].
      destruct ks; [congruence|discriminate]. }
    rewrite (al_argmax HA l Hok).
    destruct (argmax_spec Rgtb Rgtb_irr Rgtb_tr Rgtb_nt (map val l) Hl) as (sm & Emx & Hmax).
    set (j := argmax Rgtb (map val l)) in *.
    rewrite nth_error_map in Emx. destruct (nth_error l j) as [s|] eqn:Es; [|discriminate].
    simpl in Emx. injection Emx as <-.
    destruct (Forall2_nth_l _ _ _ Hs j s Es) as (e & Ee & Hse).
    rewrite nth_error_map in Ee. destruct (nth_error ks j) as [k|] eqn:Ek; [|discriminate].
    simpl in Ee. injection Ee as <-.
    assert (Hrow : forall k', In k' ks -> (sc lvl p n_dim row m k' <= val s + tau)%R).
    { intros k' Hk'. apply In_nth_error in Hk' as (j' & Ej').
      destruct (Forall2_nth_r _ _ _ Hs j' (sc lvl p n_dim row m k')) as (s2 & Es2 & H5).
      { rewrite nth_error_map, Ej'. reflexivity. }
      destruct (Hmax j' (val s2)) as [H6 _]; [rewrite nth_error_map, Es2; reflexivity|].
      apply Rgtb_f in H6. destruct H5 as [_ H5]. apply abs_le_inv in H5. lra. }
    rewrite (al_gt HA) by (auto; apply Hse).
    destruct (Rgtb (val s) (val (b_score b))) eqn:Egt.
    + apply Rgtb_t in Egt. repeat split; cbn [b_score b_idx b_dim].
      * apply Hse.
      * lra.
      * intros d r k' Hd Er Hk'. destruct (Nat.eq_dec d m) as [->|].
        -- rewrite Em in Er. injection Er as <-. auto.
        -- assert (Hd' : d < m) by lia. specialize (H3 d r k' Hd' Er Hk'). lra.
      * right. exists m, row, k. split; [lia|]. split; auto. split; [eapply nth_error_In; eauto|].
        split; auto. split; auto. split; auto. lra.
    + apply Rgtb_f in Egt. repeat split; auto.
      * intros d r k' Hd Er Hk'. destruct (Nat.eq_dec d m) as [->|].
        -- rewrite Em in Er. injection Er as <-. specialize (Hrow k' Hk'). lra.
        -- apply H3; auto. lia.
      * destruct H4 as [H4|(d & r & k' & Hd & H4)]; auto. right. exists d, r, k'. split; [lia|auto].
Qed.

Lemma apx_scan : apx_inv n_dim (scan F L X y' lvl p' idxs ns).
Proof.
  unfold scan. rewrite Hlen.
  assert (H : forall l m b, (forall i r, nth_error l i = Some r -> nth_error idxs (m + i) = Some r) ->
     apx_inv m b ->
     apx_inv (m + length l) (fold_left (scan_dim F L X y' lvl p' n_dim) (combine (seq m (length l)) l) b)).
  { induction l as [|r l IH]; intros m b Hl Hb; simpl combine.
    - simpl. rewrite Nat.add_0_r. auto.
    - cbn [length seq combine fold_left].
      replace (m + S (length l)) with (S m + length l) by lia.
      apply IH.
      + intros i r' E. replace (S m + i) with (m + S i) by lia. apply Hl. auto.
      + apply apx_step; auto. specialize (Hl 0 r eq_refl). rewrite Nat.add_0_r in Hl. auto. }
  replace n_dim with (0 + length idxs) at 1 by (rewrite <- Hlen; auto).
  rewrite <- Hlen at 2.
  apply (H idxs 0); auto.
  repeat split; auto; cbn [b_score]; try lra. intros; lia.
Qed.
End Scan.


(** Row order is irrelevant. *)
Lemma near_perm :
  (forall lvl p rows t, near_opt lvl p rows t -> forall rows', Permutation rows rows' -> near_opt lvl p rows' t) /\
  (forall lvl p rows t, near_child lvl p rows t -> forall rows', Permutation rows rows' -> near_child lvl p rows' t).
Proof.
  apply near_mutind.
  - intros lvl p rows i H1 H2 H3 H4 rows' Hp. apply near_leaf; auto.
    + rewrite <- (Permutation_length Hp). auto.
    + intros d a b s Hc. rewrite <- (tp_stop _ HT lvl p _ _ (Permutation_map y Hp)).
      eapply H4. eapply opt_rows_perm_cand; [exact HT|symmetry; exact Hp|exact Hc].
  - intros lvl p rows i d a b s nm v0 v1 c1 c2 H1 H2 H3 Hc Hn0 Hn1 Hst Hmax Hnm K1 IH1 K2 IH2 rows' Hp.
    pose proof (tp_stop _ HT lvl p _ _ (Permutation_map y Hp)) as Es.
    apply near_split with (s := s); auto.
    + rewrite <- (Permutation_length Hp). auto.
    + eapply opt_rows_perm_cand; eauto.
    + rewrite <- Es. auto.
    + rewrite <- Es. auto.
    + intros d' a' b' s' Hc'. eapply Hmax. eapply opt_rows_perm_cand; [exact HT|symmetry; exact Hp|exact Hc'].
    + apply IH1. apply Permutation_filter; auto.
    + apply IH2. apply Permutation_filter; auto.
  - intros lvl p rows t H H' rows' Hp. apply near_deep; auto.
  - intros lvl p rows t H1 H2 H3 IH rows' Hp. apply near_child_fit.
    + rewrite <- (Permutation_length Hp). auto.
    + eapply (tp_many _ HT); [|eauto]. apply Permutation_map; auto.
    + rewrite <- (tp_child _ HT p _ _ (Permutation_map y Hp)), <- (Permutation_length Hp). auto.
  - intros lvl p rows i H1 H2 H3 H4 rows' Hp. apply near_child_leaf; auto.
    + destruct H1 as [H1|H1]; [left; rewrite <- (Permutation_length Hp); auto|].
      right. intros Hm. apply H1. eapply (tp_many _ HT); [|eauto]. symmetry. apply Permutation_map; auto.
    + rewrite <- (Permutation_length Hp). auto.
Qed.

Lemma nfit_deep :
  (forall lvl pa' rows idxs t, nfit F L X y' names lvl pa' rows idxs t -> depth < lvl -> deep depth t) /\
  (forall lvl p' rows idxs t, nfit_child F L X y' names lvl p' rows idxs t -> depth < lvl -> deep depth t).
Proof.
  apply nfit_mutind; intros; simpl; auto; try lia. apply H. lia.
Qed.

Lemma apx_nfit :
  (forall lvl pa' rows idxs t, nfit F L X y' names lvl pa' rows idxs t ->
     forall pa, sorted_idx leb X idxs -> length idxs = n_dim -> good rows ->
     rel (t_prior T pa (length rows) n_dim) (l_prior L pa' (length rows) n_dim) ->
     near_opt lvl (t_prior T pa (length rows) n_dim) rows t) /\
  (forall lvl p' rows idxs t, nfit_child F L X y' names lvl p' rows idxs t ->
     forall p, sorted_idx leb X idxs -> length idxs = n_dim -> good rows -> rel p p' ->
     near_child lvl p rows t).
Proof.
  apply nfit_mutind.
  - intros lvl pa' rows idxs p' ns bst Hwf Hp' Hns Hbst Hinit pa Hs Hlen Hg Ho.
    set (p := t_prior T pa (length rows) n_dim).
    destruct (le_lt_dec lvl depth) as [Hlvl|Hlvl]; [|apply near_deep; auto].
    assert (Hp : rel p p') by (rewrite Hp', Hlen; auto).
    assert (Hp0 : Permutation (hd [] idxs) rows).
    { destruct idxs as [|r idxs]; [destruct Hwf as (_ & H & _); congruence|].
      apply (wf_idx_rows (rows := rows) (idxs := r :: idxs)); simpl; auto. }
    assert (Hn : near ns (t_stop T lvl p (map y rows))).
    { rewrite Hns. rewrite <- (tp_stop _ HT lvl p _ _ (Permutation_map y Hp0)). apply (al_stop HA); auto.
      eapply good_perm; [symmetry; exact Hp0|auto]. }
    destruct (apx_scan lvl p p' rows idxs ns Hwf Hlen Hp Hg Hlvl (proj1 Hn)) as (_ & _ & Hall & _).
    rewrite <- Hbst, Hinit in Hall. cbn [b_score] in Hall.
    apply near_leaf; auto; [simpl; congruence|]. intros d a b s Hc. rewrite <- Hlen in Hc.
    destruct (cand_pos leb gap mid F T X y HF HT lvl p rows idxs d a b s Hwf Hs Hc) as (row & k & Er & Hk & _ & _ & ->).
    rewrite Hlen in *.
    assert (Hd : d < n_dim) by (rewrite <- Hlen; apply nth_error_Some; congruence).
    specialize (Hall d row k Hd Er Hk). destruct Hn as [_ Hn]. apply abs_le_inv in Hn. lra.
  - intros lvl pa' rows idxs p' ns bst dim row k nm v c1 c2 Hwf Hp' Hns Hbst Hcand Hrow Hdim Hidx Hk Hkr Hnm Hv
      H1 IH1 H2 IH2 pa Hs Hlen Hg Ho.
    set (p := t_prior T pa (length rows) n_dim).
    destruct (le_lt_dec lvl depth) as [Hlvl|Hlvl]; [|apply near_deep; auto; split; [exact Hlvl|split; apply (proj2 nfit_deep) with (1 := H1) || apply (proj2 nfit_deep) with (1 := H2); exact Hlvl]].
    assert (Hp : rel p p') by (rewrite Hp', Hlen; auto).
    assert (Hp0 : Permutation (hd [] idxs) rows).
    { destruct idxs as [|r idxs]; [destruct Hwf as (_ & H & _); congruence|].
      apply (wf_idx_rows (rows := rows) (idxs := r :: idxs)); simpl; auto. }
    assert (Hn : near ns (t_stop T lvl p (map y rows))).
    { rewrite Hns. rewrite <- (tp_stop _ HT lvl p _ _ (Permutation_map y Hp0)). apply (al_stop HA); auto.
      eapply good_perm; [symmetry; exact Hp0|auto]. }
    destruct (apx_scan lvl p p' rows idxs ns Hwf Hlen Hp Hg Hlvl (proj1 Hn)) as (_ & _ & Hall & Hb).
    rewrite <- Hbst in Hall, Hb.
    destruct Hb as [Hb|(d1 & r1 & k1 & Hd1 & Er1 & Hk1 & Ei & Ed & Hnear & Hgt)].
    { rewrite Hb in Hidx. simpl in Hidx. lia. }
    rewrite Ei in Hidx. rewrite Ed in Hdim. apply Nat2Z.inj in Hidx, Hdim. subst k1 d1.
    rewrite Hrow in Er1. injection Er1 as <-.
    destruct (wf_idx_rows Hwf (nth_error_In _ _ Hrow)) as [Hpr Hnd].
    pose proof (Hs dim row Hrow) as Hsd.
    destruct (pos_cut leb gap mid F X HF dim row rows Hsd Hpr k Hk) as (Hc & P1 & P2).
    pose proof (cut_le leb gap mid F X HF _ _ _ _ Hc) as Hle'.
    assert (Hgp : gap (X (nth (k - 1) row 0) dim) (X (nth k row 0) dim) = true) by apply Hc.
    rewrite (fl_mid _ _ _ _ HF) in Hv by auto. rewrite Hv, Hlen.
    pose proof (pos_cand leb gap mid F T X y HF HT lvl p rows idxs dim row k Hwf Hs Hrow Hk) as Hcd.
    rewrite Hlen in Hcd.
    assert (Hrl : length row = length rows) by (apply Permutation_length; auto).
    assert (Hgr : good row) by (eapply good_perm; [symmetry; exact Hpr|auto]).
    destruct (firstn_facts row k row (Permutation_refl _) Hnd) as (N1 & I1 & N2 & I2).
    assert (G1 : good (firstn k row)).
    { split; auto. split; [|intros i Hi; apply Hgr; auto]. intros E0. apply (f_equal (@length nat)) in E0.
      rewrite firstn_length_le in E0 by lia. simpl in E0. lia. }
    assert (G2 : good (skipn k row)).
    { split; auto. split; [|intros i Hi; apply Hgr; auto]. intros E0. apply (f_equal (@length nat)) in E0.
      rewrite skipn_length in E0. simpl in E0. lia. }
    destruct Hn as [Hn1 Hn2], Hnear as [Hr1 Hr2]. pose proof (abs_le_inv _ _ Hn2). pose proof (abs_le_inv _ _ Hr2).
    apply near_split with (s := sc lvl p n_dim row dim k); auto.
    + split; auto.
    + split; auto.
    + lra.
    + intros d' a' b' s' Hc'. rewrite <- Hlen in Hc'.
      destruct (cand_pos leb gap mid F T X y HF HT lvl p rows idxs d' a' b' s' Hwf Hs Hc') as (row' & k' & Er' & Hk' & _ & _ & ->).
      rewrite Hlen in *.
      assert (Hd' : d' < n_dim) by (rewrite <- Hlen; apply nth_error_Some; congruence).
      specialize (Hall d' row' k' Hd' Er' Hk'). lra.
    + apply (proj2 near_perm) with (rows := firstn k row); auto.
    + apply (proj2 near_perm) with (rows := skipn k row); auto.
  - intros lvl p' rows idxs sub t Hl Hm Hsub Hfit IH p Hs Hlen Hg Hp.
    apply near_child_fit; auto.
    + apply (al_many HA); auto.
    + apply IH; auto.
      * rewrite Hsub. apply sorted_idx_filter; auto.
      * rewrite Hsub, map_length. auto.
      * apply (al_prior HA), (al_child HA); auto.
  - intros lvl p' rows idxs Hwf Hor p Hs Hlen Hg Hp.
    apply near_child_leaf; auto. destruct Hor as [H|H]; auto. right. intros Hm.
    apply (al_many HA) in Hm; auto. unfold gather in H. congruence.
Qed.

(** The root. *)
Theorem apx_root lvl pa pa' t : 0 < n -> (N.of_nat n <= 2 ^ 64)%N -> 0 < n_dim <= length names ->
  rel (t_prior T pa n n_dim) (l_prior L pa' n n_dim) -> pfit_root F L X y' names lvl pa' n n_dim = Ok t ->
  near_opt lvl (t_prior T pa n n_dim) (seq 0 n) t.
Proof.
  intros Hn Hn64 Hd Ho E.
  destruct (root_indices_wf leb gap mid F X HF n n_dim Hn64) as (Hwf & Hs & Hlen); [lia|].
  unfold pfit_root in E.
  apply pfit_nfit with (rows := seq 0 n) in E; auto; [|lia|rewrite seq_length; lia].
  rewrite <- (seq_length n 0) at 1. apply (proj1 apx_nfit) with (pa' := pa') (idxs := root_indices F X n n_dim); auto.
  - split; [apply seq_NoDup|]. split; [destruct n; simpl; [lia|congruence]|]. intros i Hi. apply in_seq in Hi. lia.
  - rewrite seq_length. auto.
Qed.

(** Clear decisions: the same tree. *)
Hypothesis HR : route_law F leb gap mid.
Hypothesis Hgt : t_gt T = Rgt.
Hypothesis Htau : (0 <= tau)%R.

Lemma clear_same :
  (forall lvl pa rows t, opt leb gap mid T X y names n_dim lvl pa rows t ->
     nodes_ok (pgo1 F X) (pgo2 F X) (fun r u => i_level (info u) <= depth /\ clear leb gap mid T X y n_dim tau r u) rows t ->
     forall t', near_opt lvl (t_prior T pa (length rows) n_dim) rows t' -> same_shape t t') /\
  (forall lvl p rows t, opt_child leb gap mid T X y names n_dim lvl p rows t ->
     nodes_ok (pgo1 F X) (pgo2 F X) (fun r u => i_level (info u) <= depth /\ clear leb gap mid T X y n_dim tau r u) rows t ->
     forall t', near_child lvl p rows t' -> same_shape t t').
Proof.
  apply opt_mutind.
  - intros lvl pa rows p Hp Hno Hc t' Ht'. simpl in Hc. destruct Hc as [[Hlv [Hc|Hc]] _]; [discriminate|].
    cbn [node_info i_prior i_level] in Hc. rewrite <- Hp in Hc, Ht'.
    inversion Ht' as [? ? ? i H1 H2 H3 H4|? ? ? i d a b s nm v0 v1 c1 c2 H1 H2 H3 Hcd Hn0 Hn1 Hst Hmax Hnm K1 K2|? ? ? ? Hdp Hdt]; subst; [| |lia].
    + constructor; simpl; auto.
    + exfalso. specialize (Hc _ _ _ _ Hcd). lra.
  - intros lvl pa rows p d a b s nm c1 c2 Hp Hcd Hg Hmax Hnm H1 IH1 H2 IH2 Hc t' Ht'.
    cbn [nodes_ok] in Hc. destruct Hc as ((Hlv & Hc) & Hc1 & Hc2). unfold clear in Hc. cbn [info node_info i_level] in Hlv.
    cbn [node_info i_prior i_level sd_val sd_dim] in Hc. rewrite <- Hp in Hc, Ht'.
    destruct Hc as (Hst & a0 & b0 & _ & Hcd0 & Hoth).
    assert (Ea : forall d' a' b' s', cand lvl p rows d' a' b' s' -> (d', a') <> (d, a) -> (s' + 2 * tau < s)%R).
    { destruct (leb a a0 && leb a0 a) eqn:El.
      - apply andb_true_iff in El as [El1 El2].
        rewrite (ol_antisym _ (fl_order _ _ _ _ HF) a a0 El1 El2). auto.
      - exfalso. assert (Hne : (d, a) <> (d, a0)).
        { intros E. injection E as E. subst a0.
          destruct (ol_total _ (fl_order _ _ _ _ HF) a a) as [E|E]; rewrite E in El; discriminate. }
        specialize (Hoth _ _ _ _ Hcd Hne). lra. }
    inversion Ht' as [? ? ? i G1 G2 G3 G4|? ? ? i d' a' b' s' nm' v0 v1 c1' c2' G1 G2 G3 Hcd' Hn0 Hn1 Hst' Hmax' Hnm' K1 K2|? ? ? ? Hdp Hdt]; subst; [| |lia].
    + exfalso. specialize (G4 _ _ _ _ Hcd). lra.
    + assert (Eda : d' = d /\ a' = a).
      { destruct (Nat.eq_dec d' d) as [->|Hd].
        - split; auto. destruct (leb a a' && leb a' a) eqn:El.
          + apply andb_true_iff in El as [El1 El2]. symmetry. apply (ol_antisym _ (fl_order _ _ _ _ HF)); auto.
          + exfalso. assert (Hne : (d, a') <> (d, a)).
            { intros E. injection E as E. subst a'.
              destruct (ol_total _ (fl_order _ _ _ _ HF) a a) as [E|E]; rewrite E in El; discriminate. }
            specialize (Ea _ _ _ _ Hcd' Hne). specialize (Hmax' _ _ _ _ Hcd). lra.
        - exfalso. assert (Hne : (d', a') <> (d, a)) by congruence.
          specialize (Ea _ _ _ _ Hcd' Hne). specialize (Hmax' _ _ _ _ Hcd). lra. }
      destruct Eda as [-> ->].
      destruct Hcd as (_ & Hcut & _). destruct Hcd' as (_ & Hcut' & _).
      pose proof (cut_unique leb gap mid F X HF _ _ _ _ _ Hcut Hcut'). subst b'.
      rewrite Hnm in Hnm'. injection Hnm' as <-.
      destruct (cut_routes_rows leb gap mid F X HF HR d nm rows a b Hcut) as [E1 E2].
      rewrite E1 in Hc1. rewrite E2 in Hc2.
      constructor; simpl; auto.
  - intros lvl p rows t Hl Hm Ho IH Hc t' Ht'.
    inversion Ht' as [? ? ? ? G1 G2 G3|? ? ? i G1 G2 G3 G4]; subst.
    + apply IH; auto.
    + exfalso. destruct G1; [lia|auto].
  - intros lvl p rows Hor Hc t' Ht'.
    inversion Ht' as [? ? ? ? G1 G2 G3|? ? ? i G1 G2 G3 G4]; subst.
    + exfalso. destruct Hor; [lia|auto].
    + constructor; simpl; auto.
Qed.

(** All nodes, with the rows that the splits send there. *)
Lemma near_nodes (inv : P -> Prop) :
  (forall p ys m, inv p -> inv (t_prior T (Some (t_child_prior T p ys)) m n_dim)) ->
  let ok_node r u := exists lvl p, inv p /\ (near_opt lvl p r u \/ near_child lvl p r u) in
  (forall lvl p rows t, near_opt lvl p rows t -> inv p -> nodes_ok (pgo1 F X) (pgo2 F X) ok_node rows t) /\
  (forall lvl p rows t, near_child lvl p rows t -> inv p -> nodes_ok (pgo1 F X) (pgo2 F X) ok_node rows t).
Proof.
  intros Hinv ok_node. apply near_mutind.
  - intros lvl p rows i H1 H2 H3 H4 Hi. split; [|exact I]. exists lvl, p. split; [auto|]. left. apply near_leaf; auto.
  - intros lvl p rows i d a b s nm v0 v1 c1 c2 H1 H2 H3 Hc Hn0 Hn1 Hst Hmax Hnm K1 IH1 K2 IH2 Hi.
    destruct (cut_routes_rows leb gap mid F X HF HR d nm rows a b ltac:(apply Hc)) as [E1 E2].
    cbn [nodes_ok]. rewrite E1, E2. split; [|split; auto]. exists lvl, p. split; [auto|]. left. eapply near_split; eauto.
  - intros lvl p rows t H Hd Hi. revert rows. induction t as [i|i sd u v c1 IH1 c2 IH2]; intros rows.
    + split; [|exact I]. exists lvl, p. split; auto. left. apply near_deep; auto.
    + destruct Hd as (D0 & D1 & D2). cbn [nodes_ok]. split; [|split; auto].
      exists lvl, p. split; auto. left. apply near_deep; auto. simpl. auto.
  - intros lvl p rows t H1 H2 H3 IH Hi. apply IH. auto.
  - intros lvl p rows i H1 H2 H3 H4 Hi. split; [|exact I]. exists lvl, p. split; [auto|]. right. apply near_child_leaf; auto.
Qed.
End Apx.
