(** * FitProofs: structural analysis of the perpendicular fit, for arbitrary arithmetic. *)
From Coq Require Import Permutation Sorted.
From Verif Require Import Prelude Lists Tree Perp Spec.

Lemma split_positions_In {A} (gap : A -> A -> bool) xs k :
  In k (split_positions gap xs) <->
  exists a b, 1 <= k /\ nth_error xs (k - 1) = Some a /\ nth_error xs k = Some b /\ gap a b = true.
Proof.
  unfold split_positions. rewrite in_map_iff. split.
  - intros (p & <- & Hp). apply np_where_In in Hp. apply adjacent_nth in Hp.
    destruct Hp as (a & b & Ha & Hb & E). exists a, b. simpl. rewrite Nat.sub_0_r. auto with arith.
  - intros (a & b & Hk & Ha & Hb & E). exists (k - 1). split; [lia|].
    apply np_where_In, adjacent_nth. exists a, b. replace (S (k - 1)) with k by lia. auto.
Qed.

Lemma split_positions_range {A} (gap : A -> A -> bool) xs k :
  In k (split_positions gap xs) -> 1 <= k < length xs.
Proof.
  rewrite split_positions_In. intros (a & b & H1 & _ & Hb & _). split; auto.
  apply nth_error_Some. congruence.
Qed.

(** Index matrices: every row enumerates the same set of sample numbers. *)
Definition wf_idx (rows : list nat) (idxs : list (list nat)) : Prop :=
  NoDup rows /\ idxs <> [] /\ Forall (fun row => Permutation row rows) idxs.

Lemma wf_idx_rows rows idxs row : wf_idx rows idxs -> In row idxs -> Permutation row rows /\ NoDup row.
Proof.
  intros (H1 & _ & H3) Hi. rewrite Forall_forall in H3. pose proof (H3 _ Hi) as Hp.
  split; auto. apply Permutation_NoDup with (l := rows); auto. symmetry; auto.
Qed.

Lemma sub_indices_ok rows idxs l :
  wf_idx rows idxs -> NoDup l -> incl l rows ->
  sub_indices idxs l = Ok (map (filter (fun i => mem i l)) idxs) /\
  wf_idx l (map (filter (fun i => mem i l)) idxs).
Proof.
  intros Hwf Hl Hincl. pose proof Hwf as (H1 & H2 & H3).
  assert (Hrow : Forall (fun row => Permutation row l) (map (filter (fun i => mem i l)) idxs)).
  { rewrite Forall_forall. intros r Hr. apply in_map_iff in Hr. destruct Hr as (row & <- & Hrow).
    destruct (wf_idx_rows rows idxs row Hwf Hrow) as [Hp Hnd].
    apply filter_mem_perm; auto. intros x Hx. apply Permutation_in with (l := rows); auto.
    symmetry; auto. }
  split.
  - unfold sub_indices. rewrite filter_concat.
    rewrite <- (map_length (filter (fun i => mem i l)) idxs).
    apply (reshape_concat (length l)).
    + destruct idxs; simpl; congruence.
    + eapply Forall_impl; [|exact Hrow]. simpl. intros r Hr. apply Permutation_length; auto.
  - split; auto. split; auto. destruct idxs; simpl; congruence.
Qed.

Lemma hd_length rows idxs : wf_idx rows idxs -> length (hd [] idxs) = length rows.
Proof.
  intros H. destruct idxs as [|r idxs]; [destruct H as (_ & H & _); congruence|]. simpl.
  apply Permutation_length. apply (wf_idx_rows rows (r :: idxs) r); simpl; auto.
Qed.

Section Structure.
Context {A V Y P S NM : Type}.
Variable F : feat A V.
Variable L : lik Y P S.
Variable X : nat -> nat -> A.
Variable y : nat -> Y.
Variable names : list NM.
Notation tree := (tree (pdesc NM V) S P).

(** Scores of all candidate positions along one dimension. *)
Definition dim_positions (row : list nat) (dim : nat) : list nat :=
  split_positions (f_gap F) (gather (fun i => X i dim) row).
Definition dim_scores (lvl : nat) (prior : P) (n_dim : nat) (row : list nat) (dim : nat) : list S :=
  l_split L lvl prior n_dim (gather y row) (dim_positions row dim).

Lemma scan_dim_eq lvl prior n_dim bst dim row :
  scan_dim F L X y lvl prior n_dim bst (dim, row) =
  match dim_positions row dim with
  | [] => bst
  | _ => match nth_error (dim_scores lvl prior n_dim row dim) (l_argmax L (dim_scores lvl prior n_dim row dim)),
               nth_error (dim_positions row dim) (l_argmax L (dim_scores lvl prior n_dim row dim)) with
         | Some s, Some k => if l_gt L s (b_score bst) then mkBest s (Z.of_nat k) (Z.of_nat dim) else bst
         | _, _ => bst
         end
  end.
Proof. reflexivity. Qed.

(** What the scan can return: the initial value or a genuine candidate. *)
Definition is_candidate (lvl : nat) (prior : P) (idxs : list (list nat)) (b : best S) : Prop :=
  exists dim row k j, nth_error idxs dim = Some row /\
    b_dim b = Z.of_nat dim /\ b_idx b = Z.of_nat k /\
    j = l_argmax L (dim_scores lvl prior (length idxs) row dim) /\
    nth_error (dim_positions row dim) j = Some k /\
    nth_error (dim_scores lvl prior (length idxs) row dim) j = Some (b_score b).

Lemma scan_cases lvl prior idxs no_split :
  scan F L X y lvl prior idxs no_split = mkBest no_split (-1) (-1) \/
  is_candidate lvl prior idxs (scan F L X y lvl prior idxs no_split).
Proof.
  unfold scan.
  assert (H : forall l b, (forall d r, In (d, r) l -> nth_error idxs d = Some r) ->
     (b = mkBest no_split (-1) (-1) \/ is_candidate lvl prior idxs b) ->
     let b' := fold_left (scan_dim F L X y lvl prior (length idxs)) l b in
     b' = mkBest no_split (-1) (-1) \/ is_candidate lvl prior idxs b').
  { induction l as [|[d r] l IH]; intros b Hl Hb; cbn [fold_left]; auto.
    apply IH; [intros; apply Hl; right; auto|].
    rewrite scan_dim_eq. destruct (dim_positions r d) as [|k0 ks] eqn:Ek; auto.
    rewrite <- Ek. clear k0 ks Ek.
    destruct (nth_error (dim_scores lvl prior (length idxs) r d) _) as [s|] eqn:Es; auto.
    destruct (nth_error (dim_positions r d) _) as [k|] eqn:Ekk; auto.
    destruct (l_gt L s (b_score b)); auto.
    right. exists d, r, k, (l_argmax L (dim_scores lvl prior (length idxs) r d)). simpl.
    split; [apply Hl; left; auto|]. auto. }
  apply H; auto. intros d r Hin. apply combine_seq_In in Hin. rewrite Nat.sub_0_r in Hin. tauto.
Qed.

(** Relational description of a successful fit; [rows] are the samples of the node. *)
Inductive nfit : nat -> option P -> list nat -> list (list nat) -> tree -> Prop :=
| nfit_leaf lvl pa rows idxs prior no_split bst :
    wf_idx rows idxs ->
    prior = l_prior L pa (length rows) (length idxs) ->
    no_split = l_no_split L lvl prior (gather y (hd [] idxs)) ->
    bst = scan F L X y lvl prior idxs no_split ->
    bst = mkBest no_split (-1) (-1) ->
    nfit lvl pa rows idxs
      (Leaf (mkInfo pa lvl (length rows) (Some (length idxs)) (l_post L prior (gather y (hd [] idxs)))))
| nfit_split lvl pa rows idxs prior no_split bst dim row k nm v c1 c2 :
    wf_idx rows idxs ->
    prior = l_prior L pa (length rows) (length idxs) ->
    no_split = l_no_split L lvl prior (gather y (hd [] idxs)) ->
    bst = scan F L X y lvl prior idxs no_split ->
    is_candidate lvl prior idxs bst ->
    nth_error idxs dim = Some row ->
    b_dim bst = Z.of_nat dim -> b_idx bst = Z.of_nat k ->
    In k (dim_positions row dim) ->
    1 <= k < length row ->
    nth_error names dim = Some nm ->
    v = f_mid F (X (nth (k - 1) row 0) dim) (X (nth k row 0) dim) ->
    nfit_child lvl prior (firstn k row) idxs c1 ->
    nfit_child lvl prior (skipn k row) idxs c2 ->
    nfit lvl pa rows idxs
      (Split (mkInfo pa lvl (length rows) (Some (length idxs)) (l_post L prior (gather y (hd [] idxs))))
             (mkDesc dim nm v) no_split (b_score bst) c1 c2)
with nfit_child : nat -> P -> list nat -> list (list nat) -> tree -> Prop :=
| nfit_child_fit lvl prior rows idxs sub t :
    1 < length rows -> l_many L (gather y rows) = true ->
    sub = map (filter (fun i => mem i rows)) idxs ->
    nfit (lvl + 1) (Some (l_child_prior L prior (gather y rows))) rows sub t ->
    nfit_child lvl prior rows idxs t
| nfit_child_leaf lvl prior rows idxs :
    wf_idx rows (map (filter (fun i => mem i rows)) idxs) ->
    length rows <= 1 \/ l_many L (gather y rows) = false ->
    nfit_child lvl prior rows idxs
      (Leaf (mkInfo (Some (l_child_prior L prior (gather y rows))) (lvl + 1) (length rows) None
               (l_post L prior (gather y rows)))).

Scheme nfit_mind := Induction for nfit Sort Prop
  with nfit_child_mind := Induction for nfit_child Sort Prop.
Combined Scheme nfit_mutind from nfit_mind, nfit_child_mind.

Lemma candidate_facts lvl prior idxs rows b :
  wf_idx rows idxs -> is_candidate lvl prior idxs b ->
  exists dim row k, nth_error idxs dim = Some row /\ b_dim b = Z.of_nat dim /\ b_idx b = Z.of_nat k /\
    In k (dim_positions row dim) /\ 1 <= k < length row /\ Permutation row rows /\ NoDup row.
Proof.
  intros Hwf (dim & row & k & j & Hrow & Hd & Hi & _ & Hk & _).
  exists dim, row, k. apply nth_error_In in Hk. apply nth_error_In in Hrow as Hin.
  destruct (wf_idx_rows rows idxs row Hwf Hin) as [Hp Hn].
  pose proof (split_positions_range _ _ _ Hk) as Hr. unfold gather in Hr. rewrite map_length in Hr.
  repeat split; auto; tauto.
Qed.

Lemma firstn_facts (row : list nat) k rows :
  Permutation row rows -> NoDup row ->
  NoDup (firstn k row) /\ incl (firstn k row) rows /\ NoDup (skipn k row) /\ incl (skipn k row) rows.
Proof.
  intros Hp Hn. rewrite <- (firstn_skipn k row) in Hn.
  assert (H1 : NoDup (firstn k row)).
  { revert Hn. generalize (skipn k row) as b. induction (firstn k row) as [|x l IH]; intros b Hb; [constructor|].
    inversion Hb; subst. constructor; [|eauto]. intros Hx; apply H1; apply in_or_app; auto. }
  assert (H2 : NoDup (skipn k row)).
  { revert Hn. generalize (firstn k row) as a. induction a as [|x a IH]; auto.
    intros Hb. inversion Hb; auto. }
  repeat split; auto.
  - intros x Hx. apply Permutation_in with (l := row); auto.
    rewrite <- (firstn_skipn k row). apply in_or_app; auto.
  - intros x Hx. apply Permutation_in with (l := row); auto.
    rewrite <- (firstn_skipn k row). apply in_or_app; auto.
Qed.

(** Termination and success (no OutOfFuel, no exception) and the relational description at once. *)
Lemma pfit_complete_deep : forall fuel lvl pa rows idxs,
  wf_idx rows idxs -> length idxs <= length names -> 1 <= fuel -> length rows <= fuel + 1 ->
  exists t, pfit F L X y names fuel lvl pa idxs = Ok t /\ nfit lvl pa rows idxs t.
Proof.
  induction fuel as [|fuel IH]; intros lvl pa rows idxs Hwf Hnames Hfuel0 Hfuel; [lia|].
  pose proof (hd_length _ _ Hwf) as Hlen.
  destruct idxs as [|row0 rest] eqn:Eidx; [destruct Hwf as (_ & H & _); congruence|].
  cbn [pfit]. simpl hd in Hlen. rewrite Hlen. rewrite <- Eidx in *. clear Hlen.
  set (prior := l_prior L pa (length rows) (length idxs)).
  set (no_split := l_no_split L lvl prior (gather y row0)).
  assert (Hns : no_split = l_no_split L lvl prior (gather y (hd [] idxs))) by (rewrite Eidx; auto).
  assert (Hpost : gather y row0 = gather y (hd [] idxs)) by (rewrite Eidx; auto).
  set (bst := scan F L X y lvl prior idxs no_split).
  destruct (scan_cases lvl prior idxs no_split) as [Hb|Hb]; fold bst in Hb.
  - replace (0 <? b_idx bst)%Z with false by (rewrite Hb; reflexivity).
    eexists. split; [reflexivity|]. rewrite Hpost. eapply nfit_leaf; eauto.
  - destruct (candidate_facts _ _ _ rows _ Hwf Hb) as (dim & row & k & Hrow & Hd & Hi & Hk & Hr & Hp & Hn).
    rewrite Hd, Hi, !Nat2Z.id.
    destruct (firstn_facts row k rows Hp Hn) as (N1 & I1 & N2 & I2).
    assert (Hlr : length row = length rows) by (apply Permutation_length; auto).
    replace (0 <? Z.of_nat k)%Z with true by (symmetry; apply Z.ltb_lt; lia).
    assert (Hnm : exists nm, nth_error names dim = Some nm).
    { destruct (nth_error names dim) eqn:E; [eauto|]. apply nth_error_None in E.
      assert (dim < length idxs) by (apply nth_error_Some; congruence). lia. }
    destruct Hnm as [nm Hnm]. rewrite Hnm.
    rewrite (nth_error_nth idxs dim [] Hrow).
    destruct (sub_indices_ok rows idxs (firstn k row) Hwf N1 I1) as [E1 W1].
    destruct (sub_indices_ok rows idxs (skipn k row) Hwf N2 I2) as [E2 W2].
    rewrite E1, E2. cbn [rbind].
    rewrite (hd_length _ _ W1), (hd_length _ _ W2).
    assert (L1 : length (firstn k row) = k) by (apply firstn_length_le; lia).
    assert (L2 : length (skipn k row) = length rows - k) by (rewrite skipn_length; lia).
    assert (Hchild : forall l, wf_idx l (map (filter (fun i => mem i l)) idxs) -> length l < length rows ->
      exists c, (if (1 <? length l) && l_many L (gather y l)
                 then pfit F L X y names fuel (lvl + 1) (Some (l_child_prior L prior (gather y l)))
                        (map (filter (fun i => mem i l)) idxs)
                 else Ok (Leaf (mkInfo (Some (l_child_prior L prior (gather y l))) (lvl + 1) (length l)
                                 None (l_post L prior (gather y l))))) = Ok c
                /\ nfit_child lvl prior l idxs c).
    { intros l Wl Hl. destruct (1 <? length l) eqn:El; [destruct (l_many L (gather y l)) eqn:Em|]; simpl.
      - destruct (IH (lvl + 1) (Some (l_child_prior L prior (gather y l))) l
                   (map (filter (fun i => mem i l)) idxs) Wl) as (c & Hc & Hf).
        + rewrite map_length; auto.
        + apply Nat.ltb_lt in El. lia.
        + lia.
        + exists c. split; auto. apply Nat.ltb_lt in El. eapply nfit_child_fit; eauto.
      - eexists. split; [reflexivity|]. apply nfit_child_leaf; auto.
      - eexists. split; [reflexivity|]. apply nfit_child_leaf; auto.
        apply Nat.ltb_ge in El. auto. }
    destruct (Hchild _ W1 ltac:(lia)) as (c1 & Hc1 & F1).
    destruct (Hchild _ W2 ltac:(lia)) as (c2 & Hc2 & F2).
    rewrite Hc1, Hc2. cbn [rbind]. eexists. split; [reflexivity|].
    rewrite Hpost. eapply nfit_split with (k := k); eauto.
    rewrite last_firstn, hd_skipn by lia. reflexivity.
Qed.

Lemma pfit_complete : forall fuel lvl pa rows idxs,
  wf_idx rows idxs -> length idxs <= length names -> length rows < fuel ->
  exists t, pfit F L X y names fuel lvl pa idxs = Ok t /\ nfit lvl pa rows idxs t.
Proof. intros. apply pfit_complete_deep; auto; lia. Qed.

Lemma pfit_nfit fuel lvl pa rows idxs t :
  wf_idx rows idxs -> length idxs <= length names -> length rows < fuel ->
  pfit F L X y names fuel lvl pa idxs = Ok t -> nfit lvl pa rows idxs t.
Proof.
  intros Hwf Hn Hf E. destruct (pfit_complete fuel lvl pa rows idxs Hwf Hn Hf) as (t' & E' & Hfit).
  congruence.
Qed.

End Structure.

Arguments wf_idx_rows {rows idxs row}.
