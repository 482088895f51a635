(** * OptProofs: the perpendicular fit computes the optimal tree of OptSpec.v. *)
From Coq Require Import Permutation Sorted.
From Verif Require Import Prelude Lists Tree Perp Spec FitProofs OptSpec.

(** ** Argmax over a strict weak order *)
Section Argmax.
Context {S : Type} (gt : S -> S -> bool).
Hypothesis gt_irrefl : forall a, gt a a = false.
Hypothesis gt_trans : forall a b c, gt a b = true -> gt b c = true -> gt a c = true.
Hypothesis gt_ntrans : forall a b c, gt a b = false -> gt b c = false -> gt a c = false.

Lemma gt_mixed1 a b c : gt a b = true -> gt c b = false -> gt a c = true.
Proof. intros H1 H2. destruct (gt a c) eqn:E; auto. rewrite (gt_ntrans a c b) in H1; auto. Qed.
Lemma gt_mixed2 a b c : gt a b = true -> gt a c = false -> gt c b = true.
Proof. intros H1 H2. destruct (gt c b) eqn:E; auto. rewrite (gt_ntrans a c b) in H1; auto. Qed.
Lemma gt_asym a b : gt a b = true -> gt b a = false.
Proof. intros H. destruct (gt b a) eqn:E; auto. pose proof (gt_trans a b a H E). rewrite gt_irrefl in H0. discriminate. Qed.

Lemma argmax_from_spec (full l : list S) : forall best ib,
  (exists pre, full = pre ++ l /\ nth_error full ib = Some best /\ ib < length pre /\
     forall j s, j < length pre -> nth_error full j = Some s ->
       gt s best = false /\ (gt best s = false -> ib <= j)) ->
  exists s, nth_error full (argmax_from gt best ib (length full - length l) l) = Some s /\
    forall j s', nth_error full j = Some s' ->
      gt s' s = false /\ (gt s s' = false -> argmax_from gt best ib (length full - length l) l <= j).
Proof.
  induction l as [|x l IH]; intros best ib (pre & Hf & Hb & Hib & Hpre).
  - simpl. exists best. split; auto. intros j s' Hj.
    assert (j < length full) by (apply nth_error_Some; congruence).
    rewrite Hf, app_nil_r in H. apply Hpre; auto.
  - assert (Hlen : length full = length pre + Datatypes.S (length l)) by (rewrite Hf, app_length; simpl; lia).
    assert (Hx : nth_error full (length pre) = Some x).
    { rewrite Hf, nth_error_app2, Nat.sub_diag; auto. }
    assert (Hpre' : full = (pre ++ [x]) ++ l) by (rewrite <- app_assoc; auto).
    assert (Hlp : length (pre ++ [x]) = Datatypes.S (length pre)) by (rewrite app_length; simpl; lia).
    cbn [argmax_from]. replace (length full - length (x :: l)) with (length pre) by (simpl; lia).
    replace (Datatypes.S (length pre)) with (length full - length l) by lia.
    destruct (gt x best) eqn:E.
    + apply IH. exists (pre ++ [x]). repeat split; auto; [lia| |].
      * rewrite Hlp in H. destruct (Nat.eq_dec j (length pre)) as [->|Hne].
        -- rewrite Hx in H0. injection H0 as ->. auto.
        -- destruct (Hpre j s) as [P1 P2]; auto; [lia|]. 
           destruct (gt s x) eqn:E2; auto. rewrite (gt_trans s x best E2 E) in P1; discriminate.
      * intros Hs. rewrite Hlp in H. destruct (Nat.eq_dec j (length pre)) as [->|Hne]; [lia|].
        destruct (Hpre j s) as [P1 P2]; auto; [lia|].
        exfalso. rewrite (gt_mixed1 x best s E P1) in Hs. discriminate.
    + apply IH. exists (pre ++ [x]). repeat split; auto; [lia| |].
      * rewrite Hlp in H. destruct (Nat.eq_dec j (length pre)) as [->|Hne].
        -- rewrite Hx in H0. injection H0 as ->. auto.
        -- apply Hpre with (j := j); auto; lia.
      * intros Hs. rewrite Hlp in H. destruct (Nat.eq_dec j (length pre)) as [->|Hne]; [lia|].
        apply Hpre with (s := s); auto; lia.
Qed.

Lemma argmax_spec (l : list S) : l <> [] ->
  exists s, nth_error l (argmax gt l) = Some s /\
    forall j s', nth_error l j = Some s' -> gt s' s = false /\ (gt s s' = false -> argmax gt l <= j).
Proof.
  destruct l as [|x l]; [congruence|]. intros _. simpl argmax.
  pose proof (argmax_from_spec (x :: l) l x 0) as H. simpl length in H.
  replace (Datatypes.S (length l) - length l) with 1 in H by lia. apply H.
  exists [x]. simpl. repeat split; auto; try lia.
  assert (j = 0) by lia. subst j. simpl in H1. injection H1 as <-. auto.
Qed.
End Argmax.

(** ** Laws relating the code-level records to the specification *)
Record order_law {A} (leb : A -> A -> bool) : Prop := {
  ol_refl : forall a, leb a a = true;
  ol_trans : forall a b c, leb a b = true -> leb b c = true -> leb a c = true;
  ol_total : forall a b, leb a b = true \/ leb b a = true;
  ol_antisym : forall a b, leb a b = true -> leb b a = true -> a = b
}.

(** A correct argsort: a permutation of the positions that sorts the keys. *)
Definition sorts {A} (leb : A -> A -> bool) (srt : (nat -> A) -> nat -> list nat) : Prop :=
  forall key n, Permutation (srt key n) (seq 0 n) /\
                StronglySorted (fun i j => leb (key i) (key j) = true) (srt key n).

Record feat_law {A V} (F : feat A V) (leb gap : A -> A -> bool) (mid : A -> A -> V) : Prop := {
  fl_order : order_law leb;
  fl_sort : sorts leb (f_argsort F);
  fl_gap : forall a b, leb a b = true -> f_gap F a b = gap a b;
  fl_mid : forall a b, leb a b = true -> gap a b = true -> f_mid F a b = mid a b;
  fl_strict : forall a b, leb a b = true -> gap a b = true -> leb b a = false
}.

(** Comparison against thresholds agrees with the order. *)
Definition route_law {A V} (F : feat A V) (leb gap : A -> A -> bool) (mid : A -> A -> V) : Prop :=
  forall a b x, leb a b = true -> gap a b = true ->
    (leb x a = true -> f_lt F x (mid a b) = true /\ f_ge F x (mid a b) = false) /\
    (leb b x = true -> f_lt F x (mid a b) = false /\ f_ge F x (mid a b) = true).

Record lik_law {Y P S} (L : lik Y P S) (T : tgt Y P S) (Pok : P -> Prop) (Yok : Y -> Prop) : Prop := {
  ll_prior : forall pa n d, l_prior L pa n d = t_prior T pa n d;
  ll_stop : forall lvl p ys, Pok p -> Forall Yok ys -> ys <> [] ->
      l_no_split L lvl p ys = t_stop T lvl p ys;
  ll_split : forall lvl p n_dim ys ks, Pok p -> Forall Yok ys -> n_dim <> 0 ->
      StronglySorted lt ks -> (forall k, In k ks -> 1 <= k < length ys) ->
      l_split L lvl p n_dim ys ks =
      map (fun k => t_cut T lvl p n_dim (length ks) (firstn k ys) (skipn k ys)) ks;
  ll_argmax : forall l, l_argmax L l = argmax (l_gt L) l;
  ll_gt : forall a b, l_gt L a b = true <-> t_gt T a b;
  ll_irrefl : forall a, l_gt L a a = false;
  ll_trans : forall a b c, l_gt L a b = true -> l_gt L b c = true -> l_gt L a c = true;
  ll_ntrans : forall a b c, l_gt L a b = false -> l_gt L b c = false -> l_gt L a c = false;
  ll_post : forall p ys, Pok p -> Forall Yok ys -> ys <> [] -> l_post L p ys = t_post T p ys;
  ll_child : forall p ys, Pok p -> Forall Yok ys -> ys <> [] -> l_child_prior L p ys = t_child_prior T p ys;
  ll_child_ok : forall p ys n d, Pok p -> Forall Yok ys -> ys <> [] ->
      Pok (t_prior T (Some (t_child_prior T p ys)) n d);
  ll_many : forall ys, Forall Yok ys -> ys <> [] -> l_many L ys = true <-> t_many T ys
}.

(** The specification only looks at multisets of targets. *)
Record tgt_perm {Y P S} (T : tgt Y P S) : Prop := {
  tp_stop : forall lvl p ys ys', Permutation ys ys' -> t_stop T lvl p ys = t_stop T lvl p ys';
  tp_cut : forall lvl p n m a a' b b', Permutation a a' -> Permutation b b' ->
      t_cut T lvl p n m a b = t_cut T lvl p n m a' b';
  tp_post : forall p ys ys', Permutation ys ys' -> t_post T p ys = t_post T p ys';
  tp_child : forall p ys ys', Permutation ys ys' -> t_child_prior T p ys = t_child_prior T p ys';
  tp_many : forall ys ys', Permutation ys ys' -> t_many T ys -> t_many T ys'
}.

(** ** Facts about cuts *)
Lemma NoDup_map_sorted {B} (f : nat -> B) l :
  StronglySorted lt l -> (forall k k', In k l -> In k' l -> k < k' -> f k <> f k') -> NoDup (map f l).
Proof.
  induction 1 as [|k l Hs IH Hf]; intros Hinj; simpl; constructor.
  - intros Hin. apply in_map_iff in Hin. destruct Hin as (k' & E & Hk').
    rewrite Forall_forall in Hf. apply (Hinj k k'); simpl; auto.
  - apply IH. intros; apply Hinj; simpl; auto.
Qed.

Lemma crossing (p : nat -> bool) i j : i < j -> p i = true -> p j = false ->
  exists k, i <= k < j /\ p k = true /\ p (S k) = false.
Proof.
  intros Hij Hi Hj. induction j as [|j IH]; [lia|].
  destruct (p j) eqn:E.
  - exists j. repeat split; auto; lia.
  - destruct (Nat.eq_dec i j) as [->|Hne]; [congruence|].
    destruct IH as (k & Hk & H1 & H2); auto; [lia|]. exists k. repeat split; auto; lia.
Qed.

Section Cuts.
Context {A V : Type}.
Variables leb gap : A -> A -> bool.
Variable mid : A -> A -> V.
Variable F : feat A V.
Variable X : nat -> nat -> A.
Hypothesis HF : feat_law F leb gap mid.

Definition sorted_dim (d : nat) (row : list nat) : Prop :=
  StronglySorted (fun i j => leb (X i d) (X j d) = true) row.

Let Ho := fl_order _ _ _ _ HF.

Lemma sorted_le d row i j : sorted_dim d row -> i <= j -> j < length row ->
  leb (X (nth i row 0) d) (X (nth j row 0) d) = true.
Proof.
  intros Hs Hij Hj. destruct (Nat.eq_dec i j) as [->|Hne]; [apply (ol_refl _ Ho)|].
  assert (Hi : i < length row) by lia.
  apply (StronglySorted_nth _ row i j (nth i row 0) (nth j row 0) Hs); [lia| |];
    apply nth_error_nth'; auto.
Qed.

Lemma dim_positions_In d row k : sorted_dim d row ->
  In k (dim_positions F X row d) <->
  1 <= k < length row /\ gap (X (nth (k - 1) row 0) d) (X (nth k row 0) d) = true.
Proof.
  intros Hs. unfold dim_positions. rewrite split_positions_In. unfold gather. split.
  - intros (a & b & Hk & Ha & Hb & E).
    rewrite nth_error_map in Ha, Hb.
    destruct (nth_error row (k - 1)) as [i|] eqn:Ei; [|discriminate].
    destruct (nth_error row k) as [j|] eqn:Ej; [|discriminate].
    simpl in Ha, Hb. injection Ha as <-. injection Hb as <-.
    assert (k < length row) by (apply nth_error_Some; congruence).
    rewrite (nth_error_nth _ _ 0 Ei), (nth_error_nth _ _ 0 Ej). split; [lia|].
    rewrite <- (fl_gap _ _ _ _ HF); auto.
    rewrite <- (nth_error_nth _ _ 0 Ei), <- (nth_error_nth _ _ 0 Ej). apply sorted_le; auto; lia.
  - intros (Hk & E). exists (X (nth (k - 1) row 0) d), (X (nth k row 0) d).
    split; [lia|]. rewrite !nth_error_map, !(nth_error_nth' row 0) by lia. repeat split; auto.
    rewrite (fl_gap _ _ _ _ HF); auto. apply sorted_le; auto; lia.
Qed.

Lemma filter_all {B} (p : B -> bool) l : (forall x, In x l -> p x = true) -> filter p l = l.
Proof.
  induction l as [|x l IH]; intros H; simpl; auto. rewrite (H x); simpl; auto.
  f_equal. apply IH. intros; apply H; simpl; auto.
Qed.
Lemma filter_none {B} (p : B -> bool) l : (forall x, In x l -> p x = false) -> filter p l = [].
Proof.
  induction l as [|x l IH]; intros H; simpl; auto. rewrite (H x); simpl; auto.
  apply IH. intros; apply H; simpl; auto.
Qed.
Lemma filter_prefix {B} (p : B -> bool) l m :
  (forall x, In x l -> p x = true) -> (forall x, In x m -> p x = false) -> filter p (l ++ m) = l.
Proof. intros Hl Hm. rewrite filter_app, filter_all, filter_none, app_nil_r; auto. Qed.
Lemma filter_suffix {B} (p : B -> bool) l m :
  (forall x, In x l -> p x = false) -> (forall x, In x m -> p x = true) -> filter p (l ++ m) = m.
Proof. intros Hl Hm. rewrite filter_app, filter_none, filter_all; auto. Qed.

Section Row.
Variables (d : nat) (row rows : list nat).
Hypothesis Hs : sorted_dim d row.
Hypothesis Hp : Permutation row rows.

Let va k := X (nth (k - 1) row 0) d.
Let vb k := X (nth k row 0) d.

Lemma pos_facts k : In k (dim_positions F X row d) ->
  leb (va k) (vb k) = true /\ gap (va k) (vb k) = true /\ leb (vb k) (va k) = false /\
  (forall x, In x (firstn k row) -> leb (X x d) (va k) = true) /\
  (forall x, In x (skipn k row) -> leb (vb k) (X x d) = true /\ leb (X x d) (va k) = false).
Proof.
  intros Hk. apply dim_positions_In in Hk as (Hr & Hg); auto.
  assert (Hle : leb (va k) (vb k) = true) by (apply sorted_le; auto; lia).
  assert (Hst : leb (vb k) (va k) = false) by (apply (fl_strict _ _ _ _ HF); auto).
  repeat split; auto.
  - intros x Hx. apply in_firstn_nth in Hx as (i & Hi & E).
    rewrite <- (nth_error_nth _ _ 0 E). apply sorted_le; auto; lia.
  - apply in_skipn_nth in H as (i & Hi & E).
    assert (i < length row) by (apply nth_error_Some; congruence).
    rewrite <- (nth_error_nth _ _ 0 E). apply sorted_le; auto; lia.
  - apply in_skipn_nth in H as (i & Hi & E).
    assert (i < length row) by (apply nth_error_Some; congruence).
    destruct (leb (X x d) (va k)) eqn:El; auto.
    rewrite <- Hst. symmetry. apply (ol_trans _ Ho) with (b := X x d); auto.
    rewrite <- (nth_error_nth _ _ 0 E). apply sorted_le; auto; lia.
Qed.

Lemma pos_cut k : In k (dim_positions F X row d) ->
  is_cut leb gap X d rows (va k) (vb k) /\
  Permutation (firstn k row) (left_rows leb X d (va k) rows) /\
  Permutation (skipn k row) (right_rows leb X d (va k) rows).
Proof.
  intros Hk. destruct (pos_facts k Hk) as (H1 & H2 & H3 & H4 & H5).
  apply dim_positions_In in Hk as (Hr & Hg); auto.
  split; [|split].
  - assert (Hin : forall j, j < length row -> In (nth j row 0) rows).
    { intros j Hj. apply Permutation_in with (l := row); auto. apply nth_In; auto. }
    split; [exists (nth (k - 1) row 0); split; auto; apply Hin; lia|].
    split; [exists (nth k row 0); split; auto; apply Hin; lia|].
    repeat split; auto. intros i Hi.
    apply Permutation_in with (l' := row) in Hi; [|symmetry; auto].
    rewrite <- (firstn_skipn k row) in Hi. apply in_app_or in Hi. destruct Hi as [Hi|Hi]; auto.
    right. apply H5; auto.
  - unfold left_rows. rewrite <- (Permutation_filter _ row rows Hp).
    rewrite <- (firstn_skipn k row) at 2. rewrite filter_prefix; auto. intros x Hx. apply H5; auto.
  - unfold right_rows. rewrite <- (Permutation_filter _ row rows Hp).
    rewrite <- (firstn_skipn k row) at 2. rewrite filter_suffix; auto.
    + intros x Hx. rewrite H4; auto.
    + intros x Hx. destruct (H5 x Hx) as [_ ->]. auto.
Qed.

Lemma cut_pos a b : is_cut leb gap X d rows a b ->
  exists k, In k (dim_positions F X row d) /\ a = va k /\ b = vb k.
Proof.
  intros ((ia & Hia & Ha) & (ib & Hib & Hb) & Hlt & Hg & Hbetween).
  assert (Hrow : forall i, In i rows -> exists j, j < length row /\ nth j row 0 = i).
  { intros i Hi. apply In_nth. apply Permutation_in with (l := rows); auto. symmetry; auto. }
  destruct (Hrow ia Hia) as (i & Hil & Ei). destruct (Hrow ib Hib) as (j & Hjl & Ej).
  assert (Hij : i < j).
  { destruct (Nat.le_gt_cases j i) as [Hji|]; auto.
    pose proof (sorted_le d row j i Hs Hji Hil) as Hle. rewrite Ei, Ej, Ha, Hb in Hle. congruence. }
  destruct (crossing (fun p => leb (X (nth p row 0) d) a) i j Hij) as (k & Hk & Pk & Pk').
  { simpl. rewrite Ei, Ha. apply (ol_refl _ Ho). }
  { simpl. rewrite Ej, Hb. auto. }
  simpl in Pk, Pk'. exists (S k).
  assert (Eva : a = va (S k)).
  { unfold va. replace (S k - 1) with k by lia. apply (ol_antisym _ Ho); auto.
    rewrite <- Ha at 1. rewrite <- Ei. apply sorted_le; auto; lia. }
  assert (Evb : b = vb (S k)).
  { unfold vb. apply (ol_antisym _ Ho).
    - destruct (Hbetween (nth (S k) row 0)) as [H|H]; auto; [|congruence].
      apply Permutation_in with (l := row); auto. apply nth_In. lia.
    - rewrite <- Hb. rewrite <- Ej. apply sorted_le; auto; lia. }
  split; [|split]; auto. apply dim_positions_In; auto.
  fold (va (S k)). fold (vb (S k)). rewrite <- Eva, <- Evb. split; [lia|auto].
Qed.

Lemma positions_sorted : StronglySorted lt (dim_positions F X row d).
Proof.
  unfold dim_positions, split_positions, np_where.
  pose proof (where_from_sorted 0 (adjacent (f_gap F) (gather (fun i => X i d) row))) as H.
  induction H as [|k l Hl IH Hf]; simpl; constructor; auto.
  rewrite Forall_map. eapply Forall_impl; [|exact Hf]. simpl. intros; lia.
Qed.

Lemma pos_order k k' : In k (dim_positions F X row d) -> In k' (dim_positions F X row d) ->
  k <= k' -> leb (va k) (va k') = true.
Proof.
  intros H1 H2 H. apply dim_positions_In in H1, H2; auto. apply sorted_le; auto; lia.
Qed.

Lemma pos_strict k k' : In k (dim_positions F X row d) -> In k' (dim_positions F X row d) ->
  k < k' -> leb (va k') (va k) = false.
Proof.
  intros H1 H2 H. destruct (pos_facts k H1) as (_ & _ & Hst & _).
  apply dim_positions_In in H2; auto.
  destruct (leb (va k') (va k)) eqn:E; auto. rewrite <- Hst. symmetry.
  apply (ol_trans _ Ho) with (b := va k'); auto. apply sorted_le; auto; lia.
Qed.

Lemma pos_n_cuts : n_cuts leb gap X d rows (length (dim_positions F X row d)).
Proof.
  exists (map (fun k => (va k, vb k)) (dim_positions F X row d)). split; [|split].
  - apply NoDup_map_sorted; [apply positions_sorted|]. intros k k' Hk Hk' Hlt E.
    injection E as E1 E2. pose proof (pos_strict k k' Hk Hk' Hlt) as H. rewrite E1 in H.
    rewrite (ol_refl _ Ho) in H. discriminate.
  - apply map_length.
  - intros a b. rewrite in_map_iff. split.
    + intros (k & E & Hk). injection E as <- <-. apply pos_cut; auto.
    + intros Hc. destruct (cut_pos a b Hc) as (k & Hk & -> & ->). eauto.
Qed.
End Row.

Lemma n_cuts_unique d rows m m' : n_cuts leb gap X d rows m -> n_cuts leb gap X d rows m' -> m = m'.
Proof.
  intros (cs & N & <- & H) (cs' & N' & <- & H').
  apply Permutation_length. apply NoDup_Permutation; auto.
  intros [a b]. rewrite H, H'. tauto.
Qed.

Lemma cut_unique d rows a b b' : is_cut leb gap X d rows a b -> is_cut leb gap X d rows a b' -> b = b'.
Proof.
  intros (_ & (j & Hj & <-) & Hlt & _ & Hn) (_ & (j' & Hj' & <-) & Hlt' & _ & Hn').
  apply (ol_antisym _ Ho).
  - destruct (Hn j' Hj'); auto. congruence.
  - destruct (Hn' j Hj); auto. congruence.
Qed.

Lemma cut_le d rows a b : is_cut leb gap X d rows a b -> leb a b = true.
Proof. intros (_ & _ & H & _). destruct (ol_total _ Ho a b); auto. congruence. Qed.

Lemma is_cut_perm d rows rows' a b : Permutation rows rows' ->
  is_cut leb gap X d rows a b -> is_cut leb gap X d rows' a b.
Proof.
  intros Hp ((i & Hi & Ea) & (j & Hj & Eb) & H1 & H2 & H3).
  split; [exists i; split; auto; apply Permutation_in with (l := rows); auto|].
  split; [exists j; split; auto; apply Permutation_in with (l := rows); auto|].
  repeat split; auto. intros k Hk. apply H3. apply Permutation_in with (l := rows'); auto. symmetry; auto.
Qed.

Lemma n_cuts_perm d rows rows' m : Permutation rows rows' ->
  n_cuts leb gap X d rows m -> n_cuts leb gap X d rows' m.
Proof.
  intros Hp (cs & N & E & H). exists cs. split; [|split]; auto. intros a b. split.
  - intros Hin. apply H in Hin. eapply is_cut_perm; eauto.
  - intros Hc. apply H. eapply is_cut_perm; [symmetry|]; eauto.
Qed.

Lemma left_rows_nonempty d rows a b : is_cut leb gap X d rows a b -> left_rows leb X d a rows <> [].
Proof.
  intros ((i & Hi & E) & _). intros Hn.
  assert (In i (left_rows leb X d a rows)). { apply filter_In. rewrite E, (ol_refl _ Ho). auto. }
  rewrite Hn in H. destruct H.
Qed.
Lemma right_rows_nonempty d rows a b : is_cut leb gap X d rows a b -> right_rows leb X d a rows <> [].
Proof.
  intros (_ & (i & Hi & E) & Hl & _). intros Hn.
  assert (In i (right_rows leb X d a rows)). { apply filter_In. rewrite E, Hl. auto. }
  rewrite Hn in H. destruct H.
Qed.
Lemma left_right_length d rows a : length (left_rows leb X d a rows) + length (right_rows leb X d a rows) = length rows.
Proof.
  unfold left_rows, right_rows. induction rows as [|i rows IH]; simpl; auto.
  destruct (leb (X i d) a); simpl; lia.
Qed.
Lemma left_right_perm d rows a : Permutation (left_rows leb X d a rows ++ right_rows leb X d a rows) rows.
Proof.
  unfold left_rows, right_rows. induction rows as [|i rows IH]; simpl; auto.
  destruct (leb (X i d) a); simpl; [constructor; auto|].
  symmetry. apply Permutation_cons_app. symmetry. auto.
Qed.

End Cuts.
