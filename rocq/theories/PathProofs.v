(** * PathProofs: what prediction_paths returns. *)
From Coq Require Import Permutation QArith.
From Verif Require Import Prelude Lists Tree Perp RealOps Api Spec PredictProofs ApiSpec OptProofs ClfProofs ApiProofs ImportanceProofs.
Local Open Scope nat_scope.

Lemma append_at_length {A} k (s : A) h : length (append_at k s h) = length h.
Proof. apply set_nth_length. Qed.
Lemma nth_append_at {A} k j (s : A) h : k < length h ->
  nth j (append_at k s h) [] = nth j h [] ++ (if Nat.eqb j k then [s] else []).
Proof.
  intros H. unfold append_at. rewrite nth_set_nth by auto. destruct (Nat.eqb_spec j k) as [->|]; auto.
  rewrite app_nil_r. auto.
Qed.
Lemma fold_append_length {A} (s : A) l : forall h, length (fold_left (fun h r => append_at r s h) l h) = length h.
Proof. induction l as [|r l IH]; intros h; simpl; auto. rewrite IH. apply append_at_length. Qed.
Lemma fold_append_nth {A} (s : A) l j : forall h, NoDup l -> (forall r, In r l -> r < length h) ->
  nth j (fold_left (fun h r => append_at r s h) l h) [] = nth j h [] ++ (if mem j l then [s] else []).
Proof.
  induction l as [|r l IH]; intros h Hn Hr; simpl.
  - rewrite app_nil_r. auto.
  - inversion Hn as [|? ? Hni Hn']; subst.
    rewrite IH; auto.
    2:{ intros r' Hr'. rewrite append_at_length. apply Hr. right. auto. }
    rewrite nth_append_at by (apply Hr; left; auto). rewrite <- app_assoc. f_equal.
    destruct (Nat.eqb_spec j r) as [->|Hne]; simpl; auto.
    rewrite (proj2 (mem_not_In r l)) by auto. auto.
Qed.

(** Number of positions before [p] satisfying the mask: the position of [p] in [np_where]. *)
Definition rank (m : list bool) (p : nat) : nat := length (filter (fun b => b) (firstn p m)).
Lemma where_from_rank m : forall k p, nth_error m p = Some true -> nth_error (where_from k m) (rank m p) = Some (k + p).
Proof.
  induction m as [|b m IH]; intros k p H; [destruct p; discriminate|].
  destruct p as [|p].
  - simpl in H. injection H as ->. simpl. f_equal. lia.
  - simpl in H. unfold rank in *. simpl. destruct b; simpl; rewrite IH by auto; f_equal; lia.
Qed.
Lemma np_where_rank m p : nth_error m p = Some true -> nth_error (np_where m) (rank m p) = Some p.
Proof. intros H. unfold np_where. rewrite where_from_rank; auto. Qed.
Lemma where_bound m p : In p (np_where m) -> p < length m.
Proof. intros H. apply np_where_In in H. apply nth_error_Some. congruence. Qed.
Lemma where_NoDup m : NoDup (np_where m).
Proof.
  unfold np_where. generalize 0. induction m as [|b m IH]; intros k; simpl; [constructor|].
  destruct b; auto. constructor; auto. intros H. apply where_from_lb in H. lia.
Qed.
Lemma gather_NoDup refs pos : NoDup refs -> NoDup pos -> (forall p, In p pos -> p < length refs) -> NoDup (gather_idx refs pos).
Proof.
  intros Hr Hp Hb. unfold gather_idx. induction Hp as [|p pos Hni Hp IH]; simpl; constructor.
  - intros H. apply in_map_iff in H as (p' & E & Hp').
    assert (p' = p); [|subst; contradiction].
    apply (proj1 (NoDup_nth refs 0) Hr); auto; apply Hb; simpl; auto.
  - apply IH. intros q Hq. apply Hb. right. auto.
Qed.
Lemma nth_error_gather refs pos j p : nth_error pos j = Some p -> p < length refs ->
  nth_error (gather_idx refs pos) j = nth_error refs p.
Proof.
  intros H Hp. unfold gather_idx. rewrite (map_nth_error (fun p0 => nth p0 refs 0) j pos H).
  symmetry. apply nth_error_nth'. auto.
Qed.
Lemma gather_In refs pos r : In r (gather_idx refs pos) <-> exists p, In p pos /\ nth p refs 0 = r.
Proof. unfold gather_idx. rewrite in_map_iff. split; intros (p & A & B); eauto. Qed.

Section Paths.
Context {D S P St : Type}.
Notation tree := (tree D S P).
Variables go1 go2 : D -> nat -> bool.
Variable step : D -> bool -> St.
Hypothesis Hex : forall d i, go1 d i && go2 d i = false.

(** The path the code appends at position [p] of the index array [idx]: the row number that is compared
    is [idx[p]], but the index array handed to a child consists of positions in [idx]. *)
Fixpoint actual (t : tree) (idx : list nat) (p : nat) : list St :=
  match t with
  | Leaf _ => []
  | Split _ d _ _ c1 c2 =>
      if go1 d (nth p idx 0) then
        step d false :: actual c1 (np_where (map (go1 d) idx)) (rank (map (go1 d) idx) p)
      else if go2 d (nth p idx 0) then
        step d true :: actual c2 (np_where (map (go2 d) idx)) (rank (map (go2 d) idx) p)
      else []
  end.

Lemma update_paths_length (t : tree) : forall idx refs h, length (update_paths go1 go2 step t idx refs h) = length h.
Proof.
  induction t as [i|i d a b c1 IH1 c2 IH2]; intros idx refs h; auto. cbn [update_paths].
  destruct (_ && _); destruct (_ && _); rewrite ?IH2, ?IH1, ?fold_append_length; auto.
Qed.

Lemma update_paths_other (t : tree) : forall idx refs h r, length idx = length refs -> NoDup refs ->
  (forall x, In x refs -> x < length h) -> ~ In r refs ->
  nth r (update_paths go1 go2 step t idx refs h) [] = nth r h [].
Proof.
  induction t as [i|i d a b c1 IH1 c2 IH2]; intros idx refs h r Hl Hn Hb Hr; auto. cbn [update_paths].
  set (i1 := np_where (map (go1 d) idx)). set (i2 := np_where (map (go2 d) idx)).
  assert (B1 : forall p, In p i1 -> p < length refs) by (intros p Hp; apply where_bound in Hp; rewrite map_length in Hp; lia).
  assert (B2 : forall p, In p i2 -> p < length refs) by (intros p Hp; apply where_bound in Hp; rewrite map_length in Hp; lia).
  assert (N1 : NoDup (gather_idx refs i1)) by (apply gather_NoDup; auto; apply where_NoDup).
  assert (N2 : NoDup (gather_idx refs i2)) by (apply gather_NoDup; auto; apply where_NoDup).
  assert (S1 : forall x, In x (gather_idx refs i1) -> In x refs).
  { intros x Hx. apply gather_In in Hx as (p & Hp & <-). apply nth_In. auto. }
  assert (S2 : forall x, In x (gather_idx refs i2) -> In x refs).
  { intros x Hx. apply gather_In in Hx as (p & Hp & <-). apply nth_In. auto. }
  set (h1 := fold_left (fun h r => append_at r (step d false) h) (gather_idx refs i1) h).
  set (h2 := fold_left (fun h r => append_at r (step d true) h) (gather_idx refs i2) h1).
  assert (L1 : length h1 = length h) by apply fold_append_length.
  assert (L2 : length h2 = length h) by (unfold h2; rewrite fold_append_length; auto).
  assert (E1 : nth r h1 [] = nth r h []).
  { unfold h1. rewrite fold_append_nth; auto. rewrite (proj2 (mem_not_In _ _)); [apply app_nil_r|auto]. }
  assert (E2 : nth r h2 [] = nth r h []).
  { unfold h2. rewrite fold_append_nth; auto.
    - rewrite (proj2 (mem_not_In _ _)); [rewrite app_nil_r; auto|auto].
    - intros x Hx. rewrite L1. auto. }
  set (h3 := if (0 <? length i1) && negb (is_leaf c1) then update_paths go1 go2 step c1 i1 (gather_idx refs i1) h2 else h2).
  assert (L3 : length h3 = length h) by (unfold h3; destruct (_ && _); rewrite ?update_paths_length; auto).
  assert (E3 : nth r h3 [] = nth r h []).
  { unfold h3. destruct ((0 <? length i1) && negb (is_leaf c1)); [|first [reflexivity|assumption]]. rewrite IH1; auto.
    - unfold gather_idx. rewrite map_length. auto.
    - intros x Hx. rewrite L2. auto. }
  destruct ((0 <? length i2) && negb (is_leaf c2)); [|exact E3]. rewrite IH2; auto.
  - unfold gather_idx. rewrite map_length. auto.
  - intros x Hx. rewrite L3. auto.
Qed.

Lemma update_paths_at (t : tree) : forall idx refs h p r, length idx = length refs -> NoDup refs ->
  (forall x, In x refs -> x < length h) -> nth_error refs p = Some r ->
  nth r (update_paths go1 go2 step t idx refs h) [] = nth r h [] ++ actual t idx p.
Proof.
  induction t as [i|i d a b c1 IH1 c2 IH2]; intros idx refs h p r Hl Hn Hb Hp.
  { simpl. rewrite app_nil_r. auto. }
  cbn [update_paths actual].
  set (i1 := np_where (map (go1 d) idx)). set (i2 := np_where (map (go2 d) idx)).
  assert (B1 : forall p, In p i1 -> p < length refs) by (intros q Hq; apply where_bound in Hq; rewrite map_length in Hq; lia).
  assert (B2 : forall p, In p i2 -> p < length refs) by (intros q Hq; apply where_bound in Hq; rewrite map_length in Hq; lia).
  assert (N1 : NoDup (gather_idx refs i1)) by (apply gather_NoDup; auto; apply where_NoDup).
  assert (N2 : NoDup (gather_idx refs i2)) by (apply gather_NoDup; auto; apply where_NoDup).
  assert (S1 : forall x, In x (gather_idx refs i1) -> In x refs).
  { intros x Hx. apply gather_In in Hx as (q & Hq & <-). apply nth_In. auto. }
  assert (S2 : forall x, In x (gather_idx refs i2) -> In x refs).
  { intros x Hx. apply gather_In in Hx as (q & Hq & <-). apply nth_In. auto. }
  assert (Hpl : p < length refs) by (apply nth_error_Some; congruence).
  assert (Hrp : nth p refs 0 = r) by (apply nth_error_nth; auto).
  assert (M : forall go : D -> nat -> bool, nth_error (map (go d) idx) p = Some (go d (nth p idx 0))).
  { intros go. apply map_nth_error. apply nth_error_nth'. lia. }
  assert (I : forall (go : D -> nat -> bool), In r (gather_idx refs (np_where (map (go d) idx))) <-> go d (nth p idx 0) = true).
  { intros go. rewrite gather_In. split.
    - intros (q & Hq & E). assert (Hql : q < length refs) by (apply where_bound in Hq; rewrite map_length in Hq; lia).
      assert (q = p) as -> by (apply (proj1 (NoDup_nth refs 0) Hn); auto; congruence).
      apply np_where_In in Hq. rewrite M in Hq. congruence.
    - intros E. exists p. split; auto. apply np_where_In. rewrite M, E. auto. }
  set (h1 := fold_left (fun h r => append_at r (step d false) h) (gather_idx refs i1) h).
  set (h2 := fold_left (fun h r => append_at r (step d true) h) (gather_idx refs i2) h1).
  assert (L1 : length h1 = length h) by apply fold_append_length.
  assert (L2 : length h2 = length h) by (unfold h2; rewrite fold_append_length; auto).
  assert (E1 : nth r h1 [] = nth r h [] ++ (if go1 d (nth p idx 0) then [step d false] else [])).
  { unfold h1. rewrite fold_append_nth; auto. f_equal. specialize (I go1). fold i1 in I.
    destruct (go1 d (nth p idx 0)).
    - rewrite (proj2 (mem_In _ _)); auto. apply I; auto.
    - rewrite (proj2 (mem_not_In _ _)); auto. rewrite I. discriminate. }
  assert (E2 : nth r h2 [] = nth r h1 [] ++ (if go2 d (nth p idx 0) then [step d true] else [])).
  { unfold h2. rewrite fold_append_nth; auto; [|intros x Hx; rewrite L1; auto]. f_equal. specialize (I go2). fold i2 in I.
    destruct (go2 d (nth p idx 0)).
    - rewrite (proj2 (mem_In _ _)); auto. apply I; auto.
    - rewrite (proj2 (mem_not_In _ _)); auto. rewrite I. discriminate. }
  set (h3 := if (0 <? length i1) && negb (is_leaf c1) then update_paths go1 go2 step c1 i1 (gather_idx refs i1) h2 else h2).
  assert (L3 : length h3 = length h) by (unfold h3; destruct (_ && _); rewrite ?update_paths_length; auto).
  assert (G1 : length i1 = length (gather_idx refs i1)) by (unfold gather_idx; rewrite map_length; auto).
  assert (G2 : length i2 = length (gather_idx refs i2)) by (unfold gather_idx; rewrite map_length; auto).
  specialize (Hex d (nth p idx 0)). pose proof (I go1) as I1. pose proof (I go2) as I2. fold i1 in I1. fold i2 in I2.
  destruct (go1 d (nth p idx 0)) eqn:X1.
  - (* left *)
    assert (X2 : go2 d (nth p idx 0) = false) by (destruct (go2 d (nth p idx 0)); auto; discriminate).
    rewrite X2 in E2, I2. rewrite app_nil_r in E2.
    assert (R1 : nth_error i1 (rank (map (go1 d) idx) p) = Some p) by (apply np_where_rank; rewrite M, X1; auto).
    assert (E3 : nth r h3 [] = nth r h2 [] ++ actual c1 i1 (rank (map (go1 d) idx) p)).
    { assert (Hlt : 0 <? length i1 = true) by (apply Nat.ltb_lt; destruct i1; [destruct (rank (map (go1 d) idx) p); discriminate|simpl; lia]).
      unfold h3. rewrite Hlt. destruct c1 as [j|j d' a' b' c11 c12]; simpl is_leaf; simpl andb; cbn match.
      - simpl. rewrite app_nil_r. auto.
      - apply IH1; auto.
        + intros x Hx. rewrite L2. auto.
        + rewrite (nth_error_gather refs i1 _ p R1 Hpl). auto. }
    assert (E4 : nth r (if (0 <? length i2) && negb (is_leaf c2) then update_paths go1 go2 step c2 i2 (gather_idx refs i2) h3 else h3) [] = nth r h3 []).
    { destruct ((0 <? length i2) && negb (is_leaf c2)); [|reflexivity]. apply update_paths_other; auto.
      - intros x Hx. rewrite L3. auto.
      - rewrite I2. discriminate. }
    rewrite E4, E3, E2, E1, <- app_assoc. reflexivity.
  - rewrite app_nil_r in E1.
    assert (E3 : nth r h3 [] = nth r h2 []).
    { unfold h3. destruct ((0 <? length i1) && negb (is_leaf c1)); [|first [reflexivity|assumption]]. apply update_paths_other; auto.
      - intros x Hx. rewrite L2. auto.
      - rewrite I1. discriminate. }
    destruct (go2 d (nth p idx 0)) eqn:X2.
    + assert (R2 : nth_error i2 (rank (map (go2 d) idx) p) = Some p) by (apply np_where_rank; rewrite M, X2; auto).
      assert (Hlt : 0 <? length i2 = true) by (apply Nat.ltb_lt; destruct i2; [destruct (rank (map (go2 d) idx) p); discriminate|simpl; lia]).
      rewrite Hlt. destruct c2 as [j|j d' a' b' c21 c22] eqn:Ec; simpl is_leaf; simpl andb; cbn match.
      * rewrite E3, E2, E1. reflexivity.
      * rewrite (IH2 i2 (gather_idx refs i2) h3 (rank (map (go2 d) idx) p) r); auto.
        -- rewrite E3, E2, E1, <- app_assoc. reflexivity.
        -- intros x Hx. rewrite L3. auto.
        -- rewrite (nth_error_gather refs i2 _ p R2 Hpl). auto.
    + assert (E4 : nth r (if (0 <? length i2) && negb (is_leaf c2) then update_paths go1 go2 step c2 i2 (gather_idx refs i2) h3 else h3) [] = nth r h3 []).
      { destruct ((0 <? length i2) && negb (is_leaf c2)); [|reflexivity]. apply update_paths_other; auto.
        - intros x Hx. rewrite L3. auto.
        - rewrite I2. discriminate. }
      rewrite E4, E3, E2, E1. reflexivity.
Qed.

Lemma prediction_paths_actual (t : tree) n q : q < n ->
  nth_error (prediction_paths go1 go2 step t n) q = Some (actual t (seq 0 n) q).
Proof.
  intros Hq. unfold prediction_paths.
  assert (H := update_paths_at t (seq 0 n) (seq 0 n) (repeat [] n) q q eq_refl (seq_NoDup n 0)).
  rewrite nth_error_nth' with (d := []).
  - f_equal. rewrite H.
    + replace (nth q (repeat [] n) []) with (@nil St); auto.
      clear. revert q. induction n; intros [|q]; simpl; auto.
    + intros x Hx. apply in_seq in Hx. rewrite repeat_length. lia.
    + rewrite nth_error_seq. apply Nat.ltb_lt in Hq. rewrite Hq. auto.
  - rewrite update_paths_length, repeat_length. auto.
Qed.

(** Steps a row should pass. *)
Fixpoint true_path (t : tree) (q : nat) : list (D * bool) :=
  match t with
  | Leaf _ => []
  | Split _ d _ _ c1 c2 =>
      if go1 d q then (d, false) :: true_path c1 q
      else if go2 d q then (d, true) :: true_path c2 q else []
  end.
Definition steps (p : list (D * bool)) : list St := map (fun x => step (fst x) (snd x)) p.

Lemma true_path_passes (t : tree) q : (forall d, go1 d q || go2 d q = true) ->
  passes (fun d => go1 d q = true) (fun d => go2 d q = true) t (true_path t q).
Proof.
  intros H. induction t as [i|i d a b c1 IH1 c2 IH2]; simpl; [constructor|].
  specialize (H d). destruct (go1 d q) eqn:E1; [apply passes_left; auto|].
  simpl in H. rewrite H. apply passes_right; auto.
Qed.

(** The first two steps are right. *)
Lemma actual_row (t : tree) idx p q : nth_error idx p = Some q ->
  firstn 1 (actual t idx p) = steps (firstn 1 (true_path t q)).
Proof.
  intros H. pose proof (nth_error_nth idx p 0 H) as E. destruct t as [i|i d a b c1 c2]; auto.
  cbn [actual true_path]. rewrite E. destruct (go1 d q); [reflexivity|]. destruct (go2 d q); reflexivity.
Qed.
Lemma where_seq (f : nat -> bool) n q : q < n -> f q = true ->
  nth_error (np_where (map f (seq 0 n))) (rank (map f (seq 0 n)) q) = Some q.
Proof.
  intros Hq Hf. apply np_where_rank. rewrite map_nth_error with (d := q); [rewrite Hf; auto|].
  rewrite nth_error_seq. apply Nat.ltb_lt in Hq. rewrite Hq. auto.
Qed.
Lemma actual_root2 (t : tree) n q : q < n ->
  firstn 2 (actual t (seq 0 n) q) = steps (firstn 2 (true_path t q)).
Proof.
  intros Hq. destruct t as [i|i d a b c1 c2]; auto. cbn [actual true_path].
  rewrite seq_nth by auto. rewrite Nat.add_0_l. destruct (go1 d q) eqn:E1.
  - pose proof (actual_row c1 _ _ _ (where_seq (go1 d) n q Hq E1)) as H.
    change (firstn 2 (?x :: ?l)) with (x :: firstn 1 l). cbn [steps map fst snd] in *. f_equal. exact H.
  - destruct (go2 d q) eqn:E2; auto.
    pose proof (actual_row c2 _ _ _ (where_seq (go2 d) n q Hq E2)) as H.
    change (firstn 2 (?x :: ?l)) with (x :: firstn 1 l). cbn [steps map fst snd] in *. f_equal. exact H.
Qed.
Lemma actual_len (t : tree) : forall idx p, length (actual t idx p) <= height t.
Proof.
  induction t as [i|i d a b c1 IH1 c2 IH2]; intros idx p; simpl; auto.
  destruct (go1 d _); [specialize (IH1 (np_where (map (go1 d) idx)) (rank (map (go1 d) idx) p)); simpl; lia|].
  destruct (go2 d _); [specialize (IH2 (np_where (map (go2 d) idx)) (rank (map (go2 d) idx) p)); simpl; lia|]. simpl. lia.
Qed.
Lemma true_path_len (t : tree) q : length (true_path t q) <= height t.
Proof.
  induction t as [i|i d a b c1 IH1 c2 IH2]; simpl; auto.
  destruct (go1 d q); [simpl; lia|]. destruct (go2 d q); simpl; lia.
Qed.
Lemma actual_shallow (t : tree) n q : height t <= 2 -> q < n -> actual t (seq 0 n) q = steps (true_path t q).
Proof.
  intros Hh Hq. pose proof (actual_root2 t n q Hq) as H.
  rewrite !firstn_all2 in H; auto.
  - pose proof (true_path_len t q). lia.
  - pose proof (actual_len t (seq 0 n) q). lia.
Qed.
Lemma actual_single (t : tree) : actual t [0] 0 = steps (true_path t 0).
Proof.
  induction t as [i|i d a b c1 IH1 c2 IH2]; auto. cbn [actual true_path nth map].
  destruct (go1 d 0) eqn:E1.
  - cbn [np_where where_from map rank firstn filter length steps fst snd]. f_equal. exact IH1.
  - destruct (go2 d 0) eqn:E2; auto. cbn [np_where where_from map rank firstn filter length steps fst snd]. f_equal. exact IH2.
Qed.
End Paths.

(** Over the reals. *)
Lemma goes_excl X s i : goes_left X s i && goes_right X s i = false.
Proof.
  unfold goes_left, goes_right, Rgeb. destruct (Rltb _ _) eqn:E; auto. simpl.
  apply Rltb_true in E. apply Rleb_false. auto.
Qed.
Lemma goes_total X s i : goes_left X s i || goes_right X s i = true.
Proof.
  unfold goes_left, goes_right, Rgeb. destruct (Rltb _ _) eqn:E; auto. simpl.
  apply Rltb_false in E. apply Rleb_true. auto.
Qed.
Lemma passes_iff {D S P} (l l' r r' : D -> Prop) (t : tree D S P) p : (forall d, l d <-> l' d) -> (forall d, r d <-> r' d) ->
  passes l r t p -> passes l' r' t p.
Proof. intros Hl Hr. induction 1; constructor; try tauto; firstorder. Qed.
Lemma real_passes {S P} (t : tree (pdesc string R) S P) Xq q : row_passes t Xq q (true_path (goes_left Xq) (goes_right Xq) t q).
Proof.
  unfold row_passes. eapply passes_iff; [| |apply true_path_passes; intros s; apply goes_total].
  - intros s. unfold goes_left. rewrite Rltb_true. reflexivity.
  - intros s. unfold goes_right, Rgeb. rewrite Rleb_true. split; intros; lra.
Qed.
Lemma passes_unique {S P} (t : tree (pdesc string R) S P) Xq q p p' : row_passes t Xq q p -> row_passes t Xq q p' -> p = p'.
Proof.
  unfold row_passes. intros H. revert p'. induction H as [i|i d a b c1 c2 p Hl H IH|i d a b c1 c2 p Hr H IH]; intros p' H'; inversion H'; subst; auto; try lra.
  - f_equal. auto.
  - f_equal. auto.
Qed.

Lemma paths_two {S P} (t : tree (pdesc string R) S P) Xq m q : q < m ->
  exists out p, nth_error (perp_paths t Xq m) q = Some out /\ row_passes t Xq q p /\
    (forall p', row_passes t Xq q p' -> p' = p) /\
    firstn 2 out = firstn 2 (path_steps p).
Proof.
  intros Hq. exists (actual (goes_left Xq) (goes_right Xq) perp_step t (seq 0 m) q), (true_path (goes_left Xq) (goes_right Xq) t q).
  split; [apply prediction_paths_actual; auto; apply goes_excl|]. split; [apply real_passes|]. split.
  - intros p' H. eapply passes_unique; eauto. apply real_passes.
  - rewrite actual_root2 by auto. unfold path_steps, steps. rewrite firstn_map. auto.
Qed.
Lemma paths_shallow {S P} (t : tree (pdesc string R) S P) Xq m q : m = 1 \/ height t <= 2 -> q < m ->
  exists p, nth_error (perp_paths t Xq m) q = Some (path_steps p) /\ row_passes t Xq q p /\
    (forall p', row_passes t Xq q p' -> p' = p).
Proof.
  intros Hm Hq. exists (true_path (goes_left Xq) (goes_right Xq) t q). split; [|split].
  - unfold perp_paths. rewrite prediction_paths_actual; auto; [|apply goes_excl]. f_equal. destruct Hm as [->|Hm].
    + assert (q = 0) as -> by lia. exact (actual_single (goes_left Xq) (goes_right Xq) perp_step t).
    + exact (actual_shallow (goes_left Xq) (goes_right Xq) perp_step t m q Hm Hq).
  - apply real_passes.
  - intros p' H. eapply passes_unique; eauto. apply real_passes.
Qed.
