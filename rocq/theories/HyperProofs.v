(** * HyperProofs: fitting of hyperplane trees for arbitrary arithmetic. *)
From Coq Require Import Reals Permutation Sorted.
From Verif Require Import Prelude Lists Tree Perp RealOps Clf Reg Api Hyper Spec PruneProofs StructProofs SplitFacts.
Local Open Scope nat_scope.

Lemma filter_disjoint {B} (f g : B -> bool) l : (forall x, In x l -> g x = true -> f x = false) ->
  length (filter f l) + length (filter g l) <= length l.
Proof.
  induction l as [|x l IH]; simpl; intros H; auto.
  assert (IH' : length (filter f l) + length (filter g l) <= length l) by (apply IH; intros; apply H; auto).
  destruct (g x) eqn:Eg.
  - rewrite (H x (or_introl eq_refl) Eg). simpl. lia.
  - destruct (f x); simpl; lia.
Qed.
Lemma filter_partition {B} (f g : B -> bool) l : (forall x, In x l -> g x = negb (f x)) ->
  length (filter f l) + length (filter g l) = length l.
Proof.
  induction l as [|x l IH]; simpl; intros H; auto.
  assert (IH' : length (filter f l) + length (filter g l) = length l) by (apply IH; intros; apply H; auto).
  rewrite (H x (or_introl eq_refl)). destruct (f x); simpl; lia.
Qed.

Section Fit.
Context {W C N O J E Y P S : Type}.
Variable G : geo W C N O J E.
Variable L : lik Y P S.
Variable post : R -> P -> list Y -> P.
Variable X : nat -> W.
Variable y : nat -> Y.
Variable n_dim : nat.
Variable cands : list bool -> list C.
Notation hfit := (hfit G L post X y n_dim cands).

(** A row is never on both sides of a plane. *)
Hypothesis excl : forall nrm org x, g_front G nrm org x = true -> g_back G nrm org x = false.

Lemma hfit_total fuel : forall lvl path pa rows, length rows < fuel -> exists t, hfit fuel lvl path pa rows = Ok t.
Proof.
  induction fuel as [|fuel IH]; intros lvl path pa rows H; [lia|]. cbn [Hyper.hfit].
  destruct (o_plane _) as [pl|]; [|eauto].
  set (r1 := filter _ rows). set (r2 := filter _ rows).
  destruct (0 <? length r1) eqn:E1; [|simpl; eauto]. destruct (0 <? length r2) eqn:E2; [|simpl; eauto].
  apply Nat.ltb_lt in E1, E2.
  assert (Hs : length r1 + length r2 <= length rows) by (apply filter_disjoint; intros; eapply excl; eauto).
  cbn [andb].
  assert (Hc : forall b pr rc, length rc < length rows -> exists c,
     (if (1 <? length rc) && l_many L (map y rc)
      then hfit fuel (lvl + 1) (path ++ [b]) (Some pr) rc
      else Ok (Leaf (mkInfo (Some pr) (lvl + 1) (length rc) None (l_post L (l_prior L pa (length rows) n_dim) (map y rc))))) = Ok c).
  { intros b pr rc Hrc. destruct ((1 <? length rc) && l_many L (map y rc)); [|eauto]. apply IH. lia. }
  destruct (Hc false (post 0 (l_prior L pa (length rows) n_dim) (map y r1)) r1 ltac:(lia)) as (c1 & ->).
  destruct (Hc true (post 0 (l_prior L pa (length rows) n_dim) (map y r2)) r2 ltac:(lia)) as (c2 & ->).
  cbn [rbind]. eauto.
Qed.

(** Shape of a fitted node. *)
Lemma hfit_inv fuel lvl path pa rows t : hfit fuel lvl path pa rows = Ok t ->
  let prior := l_prior L pa (length rows) n_dim in
  let ns := l_no_split L lvl prior (map y rows) in
  let st := opt_run G L X y n_dim lvl prior rows ns (cands path) in
  let inf := mkInfo pa lvl (length rows) (Some n_dim) (l_post L prior (map y rows)) in
  t = Leaf inf \/
  exists pl c1 c2, o_plane st = Some pl /\
    let r1 := filter (hgo1 G X pl) rows in
    let r2 := filter (hgo2 G X pl) rows in
    t = Split inf pl ns (o_best st) c1 c2 /\ r1 <> [] /\ r2 <> [] /\
    (forall b rc c, (b = false /\ rc = r1 /\ c = c1) \/ (b = true /\ rc = r2 /\ c = c2) ->
       let pr := post 0 prior (map y rc) in
       c = Leaf (mkInfo (Some pr) (lvl + 1) (length rc) None (l_post L prior (map y rc))) \/
       exists fuel', fuel = Datatypes.S fuel' /\ hfit fuel' (lvl + 1) (path ++ [b]) (Some pr) rc = Ok c).
Proof.
  intros H prior ns st inf. destruct fuel as [|fuel]; [discriminate|]. cbn [Hyper.hfit] in H.
  fold prior in H. fold ns in H. fold st in H. fold inf in H.
  destruct (o_plane st) as [pl|] eqn:Epl; [|left; congruence].
  set (r1 := filter _ rows) in H. set (r2 := filter (fun i => g_front _ _ _ _) rows) in H.
  destruct (0 <? length r1) eqn:E1; [|left; simpl in H; congruence].
  destruct (0 <? length r2) eqn:E2; [|left; simpl in H; congruence].
  apply Nat.ltb_lt in E1, E2. cbn [andb] in H. right. exists pl.
  destruct ((1 <? length r1) && l_many L (map y r1)) eqn:F1;
    [destruct (hfit fuel (lvl + 1) (path ++ [false]) (Some (post 0 prior (map y r1))) r1) as [c1|e] eqn:Ec1; [|discriminate]|];
    (destruct ((1 <? length r2) && l_many L (map y r2)) eqn:F2;
     [destruct (hfit fuel (lvl + 1) (path ++ [true]) (Some (post 0 prior (map y r2))) r2) as [c2|e] eqn:Ec2; [|discriminate]|]);
    cbn [rbind] in H; injection H as <-; do 2 eexists; (split; [reflexivity|]);
    change (filter (hgo1 G X pl) rows) with r1; change (filter (hgo2 G X pl) rows) with r2;
    (split; [reflexivity|]); (split; [intros Z; rewrite Z in E1; simpl in E1; lia|]); (split; [intros Z; rewrite Z in E2; simpl in E2; lia|]);
    intros b rc c [(-> & -> & ->)|(-> & -> & ->)]; eauto.
Qed.

(** The same with the reasons for leaves. *)
Lemma hfit_inv_reasons fuel lvl path pa rows t : hfit fuel lvl path pa rows = Ok t ->
  let prior := l_prior L pa (length rows) n_dim in
  let ns := l_no_split L lvl prior (map y rows) in
  let st := opt_run G L X y n_dim lvl prior rows ns (cands path) in
  let inf := mkInfo pa lvl (length rows) (Some n_dim) (l_post L prior (map y rows)) in
  (t = Leaf inf /\ (o_plane st = None \/
     exists pl, o_plane st = Some pl /\ (filter (hgo1 G X pl) rows = [] \/ filter (hgo2 G X pl) rows = []))) \/
  exists pl c1 c2, o_plane st = Some pl /\
    let r1 := filter (hgo1 G X pl) rows in
    let r2 := filter (hgo2 G X pl) rows in
    t = Split inf pl ns (o_best st) c1 c2 /\ r1 <> [] /\ r2 <> [] /\
    (forall b rc c, (b = false /\ rc = r1 /\ c = c1) \/ (b = true /\ rc = r2 /\ c = c2) ->
       let pr := post 0 prior (map y rc) in
       (c = Leaf (mkInfo (Some pr) (lvl + 1) (length rc) None (l_post L prior (map y rc))) /\
        (length rc <= 1 \/ l_many L (map y rc) = false)) \/
       exists fuel', fuel = Datatypes.S fuel' /\ hfit fuel' (lvl + 1) (path ++ [b]) (Some pr) rc = Ok c).
Proof.
  intros H prior ns st inf. destruct fuel as [|fuel]; [discriminate|]. cbn [Hyper.hfit] in H.
  fold prior in H. fold ns in H. fold st in H. fold inf in H.
  destruct (o_plane st) as [pl|] eqn:Epl; [|left; split; [congruence|auto]].
  set (r1 := filter _ rows) in H. set (r2 := filter (fun i => g_front _ _ _ _) rows) in H.
  destruct (0 <? length r1) eqn:E1;
    [|left; split; [simpl in H; congruence|right; exists pl; split; auto; left; apply Nat.ltb_ge in E1; change (r1 = []); destruct r1; [reflexivity|simpl in E1; lia]]].
  destruct (0 <? length r2) eqn:E2;
    [|left; split; [simpl in H; congruence|right; exists pl; split; auto; right; apply Nat.ltb_ge in E2; change (r2 = []); destruct r2; [reflexivity|simpl in E2; lia]]].
  apply Nat.ltb_lt in E1, E2. cbn [andb] in H. right. exists pl.
  assert (Hm : forall rc, (1 <? length rc) && l_many L (map y rc) = false -> length rc <= 1 \/ l_many L (map y rc) = false).
  { intros rc Hf. apply Bool.andb_false_iff in Hf as [Hf|Hf]; auto. apply Nat.ltb_ge in Hf. auto. }
  destruct ((1 <? length r1) && l_many L (map y r1)) eqn:F1;
    [destruct (hfit fuel (lvl + 1) (path ++ [false]) (Some (post 0 prior (map y r1))) r1) as [c1|e] eqn:Ec1; [|discriminate]|];
    (destruct ((1 <? length r2) && l_many L (map y r2)) eqn:F2;
     [destruct (hfit fuel (lvl + 1) (path ++ [true]) (Some (post 0 prior (map y r2))) r2) as [c2|e] eqn:Ec2; [|discriminate]|]);
    cbn [rbind] in H; injection H as <-; do 2 eexists; (split; [reflexivity|]);
    change (filter (hgo1 G X pl) rows) with r1; change (filter (hgo2 G X pl) rows) with r2;
    (split; [reflexivity|]); (split; [intros Z; rewrite Z in E1; simpl in E1; lia|]); (split; [intros Z; rewrite Z in E2; simpl in E2; lia|]);
    intros b rc c [(-> & -> & ->)|(-> & -> & ->)]; first [left; split; [reflexivity|apply Hm; assumption]|right; eauto].
Qed.

Lemma hfit_levels fuel : forall lvl path pa rows t, hfit fuel lvl path pa rows = Ok t ->
  levels_ok lvl t /\ i_n_data (info t) = length rows /\ i_n_dim (info t) = Some n_dim.
Proof.
  induction fuel as [|fuel IH]; intros lvl path pa rows t H; [discriminate|].
  apply hfit_inv in H as [->|(pl & c1 & c2 & _ & -> & _ & _ & Hc)]; [simpl; auto|].
  cbn [levels_ok info i_level i_n_data i_n_dim].
  assert (Hl : forall b rc c, (b = false /\ rc = filter (hgo1 G X pl) rows /\ c = c1) \/ (b = true /\ rc = filter (hgo2 G X pl) rows /\ c = c2) -> levels_ok (lvl + 1) c).
  { intros b rc c Hb. destruct (Hc b rc c Hb) as [->|(fuel' & Ef & H)]; [simpl; auto|].
    injection Ef as <-. apply IH in H. tauto. }
  repeat split; auto.
  - eapply (Hl false); left; eauto.
  - eapply (Hl true); right; eauto.
Qed.

Lemma hfit_counts fuel : forall lvl path pa rows t,
  (forall nrm org i, In i rows -> g_front G nrm org (X i) = negb (g_back G nrm org (X i))) ->
  hfit fuel lvl path pa rows = Ok t -> counts_ok t.
Proof.
  induction fuel as [|fuel IH]; intros lvl path pa rows t Hco H; [discriminate|].
  apply hfit_inv in H as [->|(pl & c1 & c2 & _ & -> & H1 & H2 & Hc)]; [simpl; auto|].
  cbn [counts_ok info i_n_data].
  assert (Hl : forall b rc c, (b = false /\ rc = filter (hgo1 G X pl) rows /\ c = c1) \/ (b = true /\ rc = filter (hgo2 G X pl) rows /\ c = c2) ->
    counts_ok c /\ i_n_data (info c) = length rc).
  { intros b rc c Hb. destruct (Hc b rc c Hb) as [->|(fuel' & Ef & H)]; [simpl; auto|].
    injection Ef as <-. split; [|eapply hfit_levels; eauto]. eapply IH; [|eauto].
    intros nrm org i Hi. apply Hco. destruct Hb as [(_ & -> & _)|(_ & -> & _)]; apply filter_In in Hi; tauto. }
  destruct (Hl false (filter (hgo1 G X pl) rows) c1) as [C1 N1]; [left; auto|].
  destruct (Hl true (filter (hgo2 G X pl) rows) c2) as [C2 N2]; [right; auto|].
  rewrite N1, N2.
  assert (length (filter (hgo1 G X pl) rows) + length (filter (hgo2 G X pl) rows) = length rows)
    by (apply filter_partition; intros; apply Hco; auto).
  destruct (filter (hgo1 G X pl) rows) eqn:Z1; [congruence|]. destruct (filter (hgo2 G X pl) rows) eqn:Z2; [congruence|].
  simpl length in *. repeat split; auto; lia.
Qed.

(** Children are fitted with the prior of their parent, so all nodes use the root's prior [q]. *)
Hypothesis post0 : forall p ys, post 0 p ys = p.
Hypothesis prior_some : forall p n d, l_prior L (Some p) n d = p.

Lemma hfit_nodes pa0 q fuel : forall lvl path pa rows t,
  hfit fuel lvl path pa rows = Ok t -> rows <> [] -> l_prior L pa (length rows) n_dim = q -> (pa = pa0 \/ pa = Some q) ->
  nodes_ok (hgo1 G X) (hgo2 G X) (fun rows n => rows <> [] /\ i_n_data (info n) = length rows /\
    i_post (info n) = l_post L q (map y rows) /\ (i_prior (info n) = pa0 \/ i_prior (info n) = Some q)) rows t.
Proof.
  induction fuel as [|fuel IH]; intros lvl path pa rows t H Hr Hq Hpa; [discriminate|].
  apply hfit_inv in H as [->|(pl & c1 & c2 & _ & -> & H1 & H2 & Hc)]; cbn [nodes_ok info i_n_data i_post i_prior];
    rewrite Hq in *; [tauto|].
  split; [tauto|].
  assert (Hl : forall b rc c, (b = false /\ rc = filter (hgo1 G X pl) rows /\ c = c1) \/ (b = true /\ rc = filter (hgo2 G X pl) rows /\ c = c2) ->
    rc <> [] -> nodes_ok (hgo1 G X) (hgo2 G X) (fun rows n => rows <> [] /\ i_n_data (info n) = length rows /\
    i_post (info n) = l_post L q (map y rows) /\ (i_prior (info n) = pa0 \/ i_prior (info n) = Some q)) rc c).
  { intros b rc c Hb Hrc. destruct (Hc b rc c Hb) as [->|(fuel' & Ef & H)].
    - rewrite post0. cbn [nodes_ok info i_n_data i_post i_prior]. tauto.
    - injection Ef as <-. rewrite post0 in H. eapply IH; eauto. }
  split; [eapply (Hl false); [left|]|eapply (Hl true); [right|]]; eauto.
Qed.

End Fit.

(** ** The whole fit *)
Section Whole.
Context {W C N O J E Y P S : Type}.
Variable G : geo W C N O J E.
Variable L : lik Y P S.
Variable post : R -> P -> list Y -> P.
Variable same : ninfo P -> ninfo P -> bool.
Variable cands : list bool -> list C.
Variable d : hset W Y.
Hypothesis excl : forall nrm org x, g_front G nrm org x = true -> g_back G nrm org x = false.

Lemma hyper_total prn lvl pa : exists t, hyper_fit G L post same prn lvl pa cands d = Ok t.
Proof.
  unfold hyper_fit. destruct (hfit_total G L post (hs_X d) (hs_y d) (hs_dim d) cands excl (Datatypes.S (hs_n d)) lvl [] pa (seq 0 (hs_n d)))
    as (t & ->); [rewrite seq_length; lia|]. simpl. destruct prn; [|eauto]. rewrite prune_correct. eauto.
Qed.

Lemma hyper_fit_inv prn lvl pa t : hyper_fit G L post same prn lvl pa cands d = Ok t ->
  exists t0, hfit G L post (hs_X d) (hs_y d) (hs_dim d) cands (Datatypes.S (hs_n d)) lvl [] pa (seq 0 (hs_n d)) = Ok t0 /\
    pruned_of t0 t.
Proof.
  unfold hyper_fit. destruct (hfit _ _ _ _ _ _ _ _ _ _ _) as [t0|e] eqn:E0; [|discriminate]. simpl. intros H.
  exists t0. split; auto. destruct prn.
  - rewrite prune_correct in H. injection H as <-. apply prune_bu_pruned.
  - injection H as <-. clear E0. induction t0; constructor; auto.
Qed.

Lemma hyper_structure prn lvl pa t : 0 < hs_n d ->
  (forall nrm org i, i < hs_n d -> g_front G nrm org (hs_X d i) = negb (g_back G nrm org (hs_X d i))) ->
  hyper_fit G L post same prn lvl pa cands d = Ok t ->
  i_n_data (info t) = hs_n d /\ counts_ok t /\ levels_ok lvl t /\
  get_n_leaves t = length (leaves t) /\ 1 <= length (leaves t) <= hs_n d /\
  get_depth t = lvl + height t /\ height t < hs_n d.
Proof.
  intros Hn Hco H. apply hyper_fit_inv in H as (t0 & E0 & Hp).
  pose proof (hfit_levels G L post (hs_X d) (hs_y d) (hs_dim d) cands _ _ _ _ _ _ E0) as (Hl & Hd & _).
  assert (Hcnt : counts_ok t0).
  { eapply hfit_counts; [|exact E0]. intros nrm org i Hi. apply in_seq in Hi. apply Hco. lia. }
  rewrite seq_length in Hd.
  pose proof (pruned_info _ _ Hp) as Hi. assert (Hcnt' : counts_ok t) by (eapply pruned_counts; eauto).
  assert (Hl' : levels_ok lvl t) by (eapply pruned_levels; eauto).
  assert (Hd' : i_n_data (info t) = hs_n d) by congruence.
  pose proof (leaves_le_data t Hcnt') as H1. pose proof (height_lt_leaves t) as H2. pose proof (leaves_pos t) as H3.
  specialize (H1 ltac:(lia)). rewrite Hd' in H1.
  repeat split; auto; try lia.
  - apply get_n_leaves_eq.
  - apply get_depth_eq; auto.
Qed.
End Whole.
