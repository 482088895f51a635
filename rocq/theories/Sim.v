(** * Sim: two feature arithmetics that sort a matrix alike and admit the same split positions give
    the same tree, up to the split values. *)
From Coq Require Import Permutation Sorted.
From Verif Require Import Prelude Lists Tree Perp Spec PruneProofs FitProofs OptProofs OptFit Api ApiSpec ApiProofs.
Local Open Scope nat_scope.

Section Sim.
Context {A V A' V' Y P S NM : Type}.
Variable F : feat A V.
Variable F' : feat A' V'.
Variable L : lik Y P S.
Variable X : nat -> nat -> A.
Variable X' : nat -> nat -> A'.
Variable y : nat -> Y.
Variable names : list NM.
Variables n n_dim : nat.

(** Same tree; the split values are computed from the same two training rows. *)
Inductive sim : tree (pdesc NM V) S P -> tree (pdesc NM V') S P -> Prop :=
| sim_leaf i : sim (Leaf i) (Leaf i)
| sim_split i d nm v v' a b c1 c2 c1' c2' r s : d < n_dim -> r < n -> s < n ->
    f_gap F (X r d) (X s d) = true ->
    v = f_mid F (X r d) (X s d) -> v' = f_mid F' (X' r d) (X' s d) ->
    sim c1 c1' -> sim c2 c2' ->
    sim (Split i (mkDesc d nm v) a b c1 c2) (Split i (mkDesc d nm v') a b c1' c2').

Hypothesis Hgap : forall d i j, d < n_dim -> i < n -> j < n ->
  f_gap F (X i d) (X j d) = f_gap F' (X' i d) (X' j d).

Lemma adjacent_ext {B B'} (g : B -> B -> bool) (g' : B' -> B' -> bool) (f : nat -> B) (f' : nat -> B') l :
  (forall i j, In i l -> In j l -> g (f i) (f j) = g' (f' i) (f' j)) ->
  adjacent g (map f l) = adjacent g' (map f' l).
Proof.
  induction l as [|a l IH]; intros H; auto. destruct l as [|b l]; auto.
  simpl in *. f_equal; auto.
Qed.

Lemma positions_sim row d : d < n_dim -> (forall i, In i row -> i < n) ->
  dim_positions F X row d = dim_positions F' X' row d.
Proof.
  intros Hd Hr. unfold dim_positions, split_positions, gather. f_equal. f_equal.
  apply adjacent_ext. intros i j Hi Hj. apply Hgap; auto.
Qed.

Lemma scan_sim lvl prior idxs ns : length idxs <= n_dim -> (forall row, In row idxs -> forall i, In i row -> i < n) ->
  scan F L X y lvl prior idxs ns = scan F' L X' y lvl prior idxs ns.
Proof.
  intros Hlen Hr. unfold scan.
  assert (H : forall l b, (forall d r, In (d, r) l -> d < length idxs /\ In r idxs) ->
     fold_left (scan_dim F L X y lvl prior (length idxs)) l b =
     fold_left (scan_dim F' L X' y lvl prior (length idxs)) l b).
  { induction l as [|[d r] l IH]; intros b Hl; cbn [fold_left]; auto.
    destruct (Hl d r) as [Hd Hin]; [left; auto|].
    rewrite !scan_dim_eq. unfold dim_scores. rewrite (positions_sim r d) by (try lia; apply Hr; auto).
    apply IH. intros; apply Hl; right; auto. }
  apply H. intros d r Hin. apply combine_seq_In in Hin. rewrite Nat.sub_0_r in Hin.
  destruct Hin as [_ E]. split; [apply nth_error_Some; congruence|eapply nth_error_In; eauto].
Qed.

Lemma pfit_sim : forall fuel lvl pa rows idxs t,
  wf_idx rows idxs -> length idxs <= n_dim -> (forall i, In i rows -> i < n) ->
  pfit F L X y names fuel lvl pa idxs = Ok t ->
  exists t', pfit F' L X' y names fuel lvl pa idxs = Ok t' /\ sim t t'.
Proof.
  induction fuel as [|fuel IH]; intros lvl pa rows idxs t Hwf Hlen Hn E; [discriminate|].
  assert (Hrows : forall row, In row idxs -> forall i, In i row -> i < n).
  { intros row Hin i Hi. apply Hn. destruct (wf_idx_rows Hwf Hin) as [Hp _].
    eapply Permutation_in; eauto. }
  destruct idxs as [|row0 rest] eqn:Eidx; [discriminate|].
  cbn [pfit] in E |- *. rewrite <- Eidx in *.
  set (prior := l_prior L pa (length row0) (length idxs)) in *.
  set (ns := l_no_split L lvl prior (gather y row0)) in *.
  rewrite <- (scan_sim lvl prior idxs ns Hlen Hrows).
  destruct (scan_cases F L X y lvl prior idxs ns) as [Hb|Hb].
  - rewrite Hb in E |- *. cbn [b_idx] in *. change (0 <? -1)%Z with false in *. cbn iota in *.
    injection E as <-. eexists. split; [reflexivity|constructor].
  - destruct (candidate_facts F L X y _ _ _ rows _ Hwf Hb) as (dim & row & k & Hrow & Hd & Hi & Hk & Hr & Hp & Hnd).
    set (bst := scan F L X y lvl prior idxs ns) in *.
    rewrite Hd, Hi, !Nat2Z.id in *.
    replace (0 <? Z.of_nat k)%Z with true in * by (symmetry; apply Z.ltb_lt; lia).
    destruct (nth_error names dim) as [nm|]; [|discriminate].
    rewrite (nth_error_nth idxs dim [] Hrow) in *.
    destruct (firstn_facts row k rows Hp Hnd) as (N1 & I1 & N2 & I2).
    destruct (sub_indices_ok rows idxs (firstn k row) Hwf N1 I1) as [E1 W1].
    destruct (sub_indices_ok rows idxs (skipn k row) Hwf N2 I2) as [E2 W2].
    rewrite E1, E2 in *. cbn [rbind] in *.
    assert (Hchild : forall l (pc : P) c, wf_idx l (map (filter (fun i => mem i l)) idxs) -> incl l rows ->
       (if (1 <? length (hd [] (map (filter (fun i => mem i l)) idxs))) && l_many L (gather y l)
        then pfit F L X y names fuel (lvl + 1) (Some pc) (map (filter (fun i => mem i l)) idxs)
        else Ok (Leaf (mkInfo (Some pc) (lvl + 1) (length (hd [] (map (filter (fun i => mem i l)) idxs)))
                  None (l_post L prior (gather y l))))) = Ok c ->
       exists c', (if (1 <? length (hd [] (map (filter (fun i => mem i l)) idxs))) && l_many L (gather y l)
        then pfit F' L X' y names fuel (lvl + 1) (Some pc) (map (filter (fun i => mem i l)) idxs)
        else Ok (Leaf (mkInfo (Some pc) (lvl + 1) (length (hd [] (map (filter (fun i => mem i l)) idxs)))
                  None (l_post L prior (gather y l))))) = Ok c' /\ sim c c').
    { intros l pc c Wl Il Ec. destruct ((1 <? length (hd [] (map (filter (fun i => mem i l)) idxs))) && l_many L (gather y l)).
      - apply IH with (rows := l) in Ec; auto. rewrite map_length; auto.
      - injection Ec as <-. eexists. split; [reflexivity|constructor]. }
    destruct (if (1 <? length (hd [] (map (filter (fun i => mem i (firstn k row))) idxs))) && l_many L (gather y (firstn k row))
        then _ else _) as [c1|] eqn:Ec1 in E; [|discriminate].
    cbn [rbind] in E.
    destruct (if (1 <? length (hd [] (map (filter (fun i => mem i (skipn k row))) idxs))) && l_many L (gather y (skipn k row))
        then _ else _) as [c2|] eqn:Ec2 in E; [|discriminate].
    cbn [rbind] in E. injection E as <-.
    destruct (Hchild _ _ _ W1 I1 Ec1) as (c1' & -> & S1).
    destruct (Hchild _ _ _ W2 I2 Ec2) as (c2' & -> & S2).
    cbn [rbind]. eexists. split; [reflexivity|].
    pose proof (split_positions_In (f_gap F) (gather (fun i => X i dim) row) k) as HP.
    apply HP in Hk as (a & b & _ & Ea & Eb & Hg). unfold gather in Ea, Eb.
    rewrite last_firstn, hd_skipn by lia.
    eapply sim_split with (r := nth (k - 1) row 0) (s := nth k row 0); auto.
    + assert (dim < length idxs) by (apply nth_error_Some; congruence). lia.
    + apply (Hrows row); [eapply nth_error_In; eauto|]. apply nth_In. lia.
    + apply (Hrows row); [eapply nth_error_In; eauto|]. apply nth_In. lia.
    + rewrite nth_error_map in Ea, Eb.
      destruct (nth_error row (k - 1)) eqn:Ek1; [|discriminate]. destruct (nth_error row k) eqn:Ek2; [|discriminate].
      rewrite (nth_error_nth _ _ 0 Ek1), (nth_error_nth _ _ 0 Ek2). simpl in Ea, Eb. congruence.
Qed.

Variable same : ninfo P -> ninfo P -> bool.
Lemma sim_info t t' : sim t t' -> info t' = info t.
Proof. destruct 1; auto. Qed.
Lemma sim_prune t t' : sim t t' -> sim (prune_bu same t) (prune_bu same t').
Proof.
  induction 1 as [i|i d nm v v' a b c1 c2 c1' c2' r s Hd Hr Hs Hg Hv Hv' H1 IH1 H2 IH2]; simpl; [constructor|].
  destruct IH1 as [i1|i1 d1 m1 v1 v1' a1 b1 e1 e2 e1' e2' r1 s1 K1 K2 K3 K4 K5 K6 K7 K8];
    [destruct IH2 as [i2|i2 d2 m2 v2 v2' a2 b2 f1 f2 f1' f2' r2 s2 M1 M2 M3 M4 M5 M6 M7 M8];
     [destruct (same i1 i2); [constructor|]|]|];
    (eapply sim_split with (r := r) (s := s); auto; try constructor; auto).
  - eapply sim_split with (r := r2) (s := s2); auto.
  - eapply sim_split with (r := r1) (s := s1); auto.
Qed.
End Sim.

(** At the level of [fit]: a tree fitted with one arithmetic exists with the other one. *)
Theorem fit_sim {A V A' V' Y P S} (F : feat A V) (F' : feat A' V') (L : lik Y P S) same do_prune lvl pa
    (d : tset A Y) (X' : nat -> nat -> A') t :
  permutes (f_argsort F) -> tset_ok d ->
  (forall c, c < ts_dim d -> f_argsort F' (fun i => X' i c) (ts_n d) = f_argsort F (fun i => ts_X d i c) (ts_n d)) ->
  (forall c i j, c < ts_dim d -> i < ts_n d -> j < ts_n d ->
     f_gap F (ts_X d i c) (ts_X d j c) = f_gap F' (X' i c) (X' j c)) ->
  perp_fit F L same do_prune lvl pa d = Ok t ->
  exists t', perp_fit F' L same do_prune lvl pa (mkSet (ts_n d) (ts_dim d) X' (ts_y d) (ts_names d)) = Ok t' /\
    sim F F' (ts_X d) X' (ts_n d) (ts_dim d) t t'.
Proof.
  intros Hp (Hn & Hn64 & Hdim & Hnm) Hsort Hgap E.
  destruct (perp_fit_inv F L same _ _ _ _ _ E) as (t0 & E0 & -> & _).
  destruct (root_indices_wf' F (ts_X d) (ts_n d) (ts_dim d) Hp Hn64) as [Hwf Hlen]; [lia|].
  unfold pfit_root in E0.
  destruct (pfit_sim F F' L (ts_X d) X' (ts_y d) (ts_names d) (ts_n d) (ts_dim d) Hgap _ _ _ _ _ _ Hwf
              ltac:(rewrite Hlen; auto) ltac:(intros i Hi; apply in_seq in Hi; lia) E0) as (t0' & E0' & Hs).
  exists (if do_prune then prune_bu same t0' else t0'). split.
  - unfold perp_fit, pfit_root. cbn [ts_n ts_dim ts_X ts_y ts_names].
    assert (Hr : root_indices F' X' (ts_n d) (ts_dim d) = root_indices F (ts_X d) (ts_n d) (ts_dim d)).
    { unfold root_indices. apply map_ext_in. intros c Hc. apply in_seq in Hc. f_equal. apply Hsort. lia. }
    rewrite Hr, E0'. cbn [rbind]. destruct do_prune; auto. apply prune_correct.
  - destruct do_prune; auto. apply sim_prune; auto.
Qed.
