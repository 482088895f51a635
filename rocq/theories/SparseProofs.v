(** * SparseProofs: reading a compressed matrix gives the entries of the dense matrix it stands for. *)
From Coq Require Import FunctionalExtensionality.
From Verif Require Import Prelude Lists Tree Perp Validate Sparse SparseSpec.

(** ** Slices *)

Lemma filter_map_comm {A B} (f : A -> B) (p : B -> bool) l : filter p (map f l) = map f (filter (fun a => p (f a)) l).
Proof. induction l as [|a l IH]; cbn; [reflexivity|]. destruct (p (f a)); cbn; now rewrite IH. Qed.

Lemma filter_filter {A} (p q : A -> bool) l : filter q (filter p l) = filter (fun a => p a && q a) l.
Proof. induction l as [|a l IH]; cbn; [reflexivity|]. destruct (p a); cbn; [destruct (q a)|]; now rewrite IH. Qed.

Lemma filter_none {A} (p : A -> bool) l : (forall a, In a l -> p a = false) -> filter p l = [].
Proof. induction l as [|a l IH]; intros H; cbn; [reflexivity|]. rewrite (H a) by (left; reflexivity). apply IH. intros b Hb. apply H. now right. Qed.

Lemma filter_ext_In {A} (p q : A -> bool) l : (forall a, In a l -> p a = q a) -> filter p l = filter q l.
Proof.
  induction l as [|a l IH]; intros H; cbn; [reflexivity|]. rewrite (H a) by (left; reflexivity).
  rewrite IH by (intros b Hb; apply H; now right). reflexivity.
Qed.

Lemma slice_filter {A} (d : A) (l : list A) : forall a b,
  firstn (b - a) (skipn a l) = map (fun k => nth k l d) (filter (fun k => (a <=? k) && (k <? b)) (seq 0 (length l))).
Proof.
  induction l as [|x l IH]; intros a b.
  - cbn [length seq filter map]. rewrite skipn_nil, firstn_nil. reflexivity.
  - cbn [length seq]. cbn [filter]. rewrite <- seq_shift, filter_map_comm.
    destruct a as [|a].
    + cbn [Nat.leb skipn andb]. rewrite Nat.sub_0_r. destruct b as [|b].
      * cbn [firstn Nat.ltb Nat.leb]. rewrite (filter_none (fun a => 0 <=? S a) _ ) || rewrite filter_none; [reflexivity|].
        intros k _. reflexivity.
      * cbn [firstn]. change (0 <? S b) with true. cbn [map nth]. rewrite map_map. cbn [nth]. f_equal.
        specialize (IH 0 b). rewrite Nat.sub_0_r in IH. cbn [skipn] in IH. rewrite IH. f_equal.
    + cbn [Nat.leb andb skipn]. rewrite map_map. cbn [nth].
      replace (b - S a) with ((b - 1) - a) by lia. rewrite IH. f_equal. apply filter_ext_In. intros k _.
      f_equal. apply eq_true_iff_eq. rewrite !Nat.ltb_lt. lia.
Qed.

Lemma nth_combine_fst {A B} (l : list A) (m : list B) k a b : length l = length m -> k < length m ->
  nth k (combine l m) (a, b) = (nth k l a, nth k m b).
Proof. intros E _. now apply combine_nth. Qed.

Lemma lane_stored {A} (zero : A) (c : compressed A) i j : length (k_indices c) = length (k_data c) ->
  map snd (filter (fun e => Nat.eqb (fst e) j) (lane c i)) = stored_at zero c i j.
Proof.
  intros E. unfold lane. rewrite (slice_filter (0, zero)). rewrite combine_length, E, Nat.min_id.
  rewrite filter_map_comm, map_map, filter_filter. unfold stored_at, in_lane.
  rewrite (filter_ext_In _ (fun k => (nth i (k_indptr c) 0 <=? k) && (k <? nth (1 + i) (k_indptr c) 0) && Nat.eqb (nth k (k_indices c) 0) j)).
  - apply map_ext_in. intros k Hk. apply filter_In in Hk as [Hk _]. apply in_seq in Hk. rewrite nth_combine_fst by (auto; lia). reflexivity.
  - intros k Hk. apply in_seq in Hk. rewrite nth_combine_fst by (auto; lia). reflexivity.
Qed.

Lemma lane_minor {A} (c : compressed A) i e : comp_ok c -> In e (lane c i) -> fst e < k_minor c.
Proof.
  intros (_ & _ & _ & _ & _ & F) H. unfold lane in H.
  assert (In e (combine (k_indices c) (k_data c))) as H1.
  { apply in_firstn_nth in H as (k & _ & H). apply nth_error_In in H. 
    apply in_skipn_nth in H as (m & _ & H). eapply nth_error_In; eauto. }
  destruct e as [k v]. apply in_combine_l in H1. rewrite Forall_forall in F. now apply F.
Qed.

(** ** Matrices built from lanes *)

Lemma offsets_length {B} (ls : list (list B)) : forall k, length (offsets k ls) = 1 + length ls.
Proof. induction ls as [|l ls IH]; intros k; cbn; [reflexivity|]. now rewrite IH. Qed.

Lemma offsets_nth {B} (ls : list (list B)) : forall k j, j <= length ls ->
  nth j (offsets k ls) 0 = k + length (concat (firstn j ls)).
Proof.
  induction ls as [|l ls IH]; intros k j Hj; destruct j as [|j]; cbn in *; try lia.
  rewrite IH by lia. rewrite app_length. lia.
Qed.

Lemma skipn_concat {B} (ls : list (list B)) : forall j,
  skipn (length (concat (firstn j ls))) (concat ls) = concat (skipn j ls).
Proof.
  induction ls as [|l ls IH]; intros [|j]; cbn; try reflexivity.
  rewrite app_length, skipn_app, (skipn_all2 l) by lia. cbn. rewrite <- IH. f_equal. lia.
Qed.

Lemma concat_firstn_S {B} (ls : list (list B)) : forall j, j < length ls ->
  length (concat (firstn (1 + j) ls)) = length (concat (firstn j ls)) + length (nth j ls []).
Proof.
  induction ls as [|l ls IH]; intros j Hj; [cbn in Hj; lia|]. destruct j as [|j].
  - cbn. rewrite app_nil_r. lia.
  - change (firstn (1 + S j) (l :: ls)) with (l :: firstn (1 + j) ls). change (firstn (S j) (l :: ls)) with (l :: firstn j ls).
    cbn [concat nth]. rewrite !app_length, IH by (cbn in Hj; lia). lia.
Qed.

Lemma combine_split_map {A B} (l : list (A * B)) : combine (map fst l) (map snd l) = l.
Proof. induction l as [|[a b] l IH]; cbn; [reflexivity|]. now rewrite IH. Qed.

Lemma lane_of_lanes {A} dt n (ls : list (list (nat * A))) j : lane (of_lanes dt n ls) j = nth j ls [].
Proof.
  unfold lane, of_lanes. cbn [k_indptr k_indices k_data]. rewrite combine_split_map.
  destruct (Nat.lt_ge_cases j (length ls)) as [H|H].
  - rewrite !offsets_nth by lia. cbn [Nat.add]. rewrite skipn_concat. change (S j) with (1 + j). rewrite (concat_firstn_S ls j H).
    replace (_ - _) with (length (nth j ls [])) by lia.
    assert (skipn j ls = nth j ls [] :: skipn (S j) ls) as ->.
    { clear -H. revert j H. induction ls as [|l ls IH]; intros [|j] H; cbn in *; try lia; try reflexivity. apply IH. lia. }
    cbn [concat]. rewrite firstn_app, Nat.sub_diag, firstn_O, app_nil_r. apply firstn_all.
  - rewrite (nth_overflow ls) by lia. rewrite (nth_overflow _ 0 (n := 1 + j)) by (rewrite offsets_length; lia).
    reflexivity.
Qed.

Lemma offsets_last {B} (ls : list (list B)) : forall k, last (offsets k ls) 0 = k + length (concat ls).
Proof.
  intros k. rewrite last_nth, offsets_length. rewrite offsets_nth by lia.
  replace (1 + length ls - 1) with (length ls) by lia. now rewrite firstn_all.
Qed.

Lemma of_lanes_ok {A} dt n (ls : list (list (nat * A))) :
  (forall l e, In l ls -> In e l -> fst e < n) -> comp_ok (of_lanes dt n ls).
Proof.
  intros H. unfold comp_ok, of_lanes. cbn [k_major k_minor k_indptr k_indices k_data].
  rewrite offsets_length, offsets_last, !map_length. repeat split; try reflexivity.
  - destruct ls; reflexivity.
  - intros j Hj. rewrite !offsets_nth by lia. pose proof (concat_firstn_S ls j Hj). lia.
  - apply Forall_forall. intros i Hi. apply in_map_iff in Hi as (e & <- & He). apply in_concat in He as (l & Hl & He). eauto.
Qed.

(** ** Conversion to CSC *)

Lemma nth_seq_map {B} (f : nat -> B) n k d : k < n -> nth k (map f (seq 0 n)) d = f k.
Proof. intros H. rewrite (nth_indep _ d (f 0)) by (now rewrite map_length, seq_length). rewrite map_nth, seq_nth by lia. reflexivity. Qed.


Lemma filter_flat_one {A B} (g : nat -> list B) (mk : nat -> B -> nat * A) i :
  (forall i' b, fst (mk i' b) = i') -> forall n s,
  filter (fun e => Nat.eqb (fst e) i) (flat_map (fun i' => map (mk i') (g i')) (seq s n)) =
  if (s <=? i) && (i <? s + n) then map (mk i) (g i) else [].
Proof.
  intros Hmk. induction n as [|n IH]; intros s; cbn [seq flat_map].
  - cbn [filter map]. rewrite Nat.add_0_r. destruct (Nat.leb_spec s i); cbn [andb]; [|reflexivity]. destruct (Nat.ltb_spec i s); [lia|reflexivity].
  - rewrite filter_app, IH. destruct (Nat.eqb_spec s i) as [->|Hne].
    + replace (filter _ (map (mk i) (g i))) with (map (mk i) (g i)).
      2: { clear IH. induction (g i) as [|b l IHl]; cbn [map filter]; [reflexivity|]. rewrite Hmk, Nat.eqb_refl, <- IHl. reflexivity. }
      assert (S i <=? i = false) as -> by (apply Nat.leb_gt; lia). cbn [andb]. rewrite app_nil_r.
      assert (i <=? i = true) as -> by (apply Nat.leb_le; lia). assert (i <? i + S n = true) as -> by (apply Nat.ltb_lt; lia). reflexivity.
    + rewrite filter_none.
      2: { intros e He. apply in_map_iff in He as (b & <- & _). rewrite Hmk. now apply Nat.eqb_neq. }
      cbn [app]. assert ((S s <=? i) && (i <? S s + n) = (s <=? i) && (i <? s + S n)) as ->; [|reflexivity].
      apply eq_true_iff_eq. rewrite !andb_true_iff, !Nat.leb_le, !Nat.ltb_lt. lia.
Qed.

Lemma stored_out {A} (zero : A) c i j : comp_ok c -> k_major c <= i \/ k_minor c <= j -> stored_at zero c i j = [].
Proof.
  intros (Hl & _ & _ & _ & Hi & HF) H. unfold stored_at. rewrite filter_none; [reflexivity|]. intros k Hk. apply in_seq in Hk.
  destruct H as [H|H].
  - unfold in_lane. rewrite (nth_overflow (k_indptr c) (n := 1 + i)) by lia. rewrite andb_false_r. reflexivity.
  - apply andb_false_intro2. apply Nat.eqb_neq. rewrite Forall_forall in HF.
    assert (In (nth k (k_indices c) 0) (k_indices c)) as Hin by (apply nth_In; lia). apply HF in Hin. lia.
Qed.

Lemma swap_ok {A} (c : compressed A) : comp_ok (swap_axes c).
Proof.
  apply of_lanes_ok. intros l e Hl He. apply in_map_iff in Hl as (j & <- & _).
  apply in_flat_map in He as (i & Hi & He). apply in_map_iff in He as (e' & <- & _). apply in_seq in Hi. cbn. lia.
Qed.

Lemma csc_lane_csc {A} (M : smat A) : csc_lane (to_csc M) = csc_lane M.
Proof. destruct M; reflexivity. Qed.
Lemma to_csc_twice {A} (M : smat A) : to_csc (to_csc M) = to_csc M.
Proof. destruct M; reflexivity. Qed.
Lemma rows_csc {A} (M : smat A) : s_rows (to_csc M) = s_rows M.
Proof. destruct M; reflexivity. Qed.
Lemma cols_csc {A} (M : smat A) : s_cols (to_csc M) = s_cols M.
Proof. destruct M; [|reflexivity]. cbn [to_csc s_cols]. unfold swap_axes, of_lanes. cbn [k_major]. now rewrite map_length, seq_length. Qed.
Lemma csc_ok {A} (M : smat A) : s_ok M -> s_ok (to_csc M).
Proof. destruct M; cbn; auto. intros _. apply swap_ok. Qed.
Lemma dtype_csc {A} (M : smat A) : s_dtype (to_csc M) = s_dtype M.
Proof. destruct M; reflexivity. Qed.

Lemma csc_lane_stored {A} (zero : A) (M : smat A) i d : s_ok M ->
  map snd (filter (fun e => Nat.eqb (fst e) i) (csc_lane M d)) = stored zero M i d.
Proof.
  intros H. destruct M as [c|c]; cbn [s_ok stored] in *; unfold csc_lane; cbn [to_csc].
  - unfold swap_axes. rewrite lane_of_lanes.
    destruct (Nat.lt_ge_cases d (k_minor c)) as [Hd|Hd].
    + rewrite nth_seq_map by lia.
      rewrite (filter_flat_one (fun i => filter (fun e => Nat.eqb (fst e) d) (lane c i)) (fun i e => (i, snd e)) i) by reflexivity.
      cbn [Nat.leb andb Nat.add].
      destruct (Nat.ltb_spec i (k_major c)) as [Hi|Hi].
      * rewrite map_map. cbn [snd]. apply lane_stored. apply H.
      * cbn. symmetry. apply stored_out; auto.
    + rewrite nth_overflow by (rewrite map_length, seq_length; lia). cbn. symmetry. apply stored_out; auto.
  - apply lane_stored. apply H.
Qed.

Lemma csc_lane_minor {A} (M : smat A) d e : s_ok M -> In e (csc_lane M d) -> fst e < s_rows M.
Proof.
  intros H He. destruct M as [c|c]; cbn [s_ok s_rows] in *; unfold csc_lane in He; cbn [to_csc] in He.
  - apply (lane_minor (swap_axes c) d e (swap_ok c)) in He. exact He.
  - eapply lane_minor; eauto.
Qed.

(** ** [toarray] *)

Section Values.
Context {A : Type}.
Variables (zero : A) (add : A -> A -> A).
Notation entry := (entry zero add).
Notation toarray := (toarray zero add).
Notation to_array := (to_array zero add).
Notation add_at := (add_at zero add).

Lemma entry_stored M i j : entry M i j = fold_left add (stored zero M i j) zero.
Proof. reflexivity. Qed.

Lemma add_at_length k v l : length (add_at k v l) = length l.
Proof. apply set_nth_length. Qed.

Lemma nth_set_nth (l : list A) k v q d : nth q (set_nth k v l) d = if Nat.eqb q k && (q <? length l) then v else nth q l d.
Proof.
  revert k q. induction l as [|x l IH]; intros [|k] [|q]; cbn [set_nth nth length]; try reflexivity.
  - rewrite andb_comm. reflexivity.
  - rewrite IH. reflexivity.
Qed.

Lemma fold_add_length es : forall l, length (fold_left (fun l e => add_at (fst e) (snd e) l) es l) = length l.
Proof. induction es as [|e es IH]; intros l; cbn; [reflexivity|]. now rewrite IH, add_at_length. Qed.

Lemma fold_add_nth es : forall l q, q < length l ->
  nth q (fold_left (fun l e => add_at (fst e) (snd e) l) es l) zero =
  fold_left add (map snd (filter (fun e => Nat.eqb (fst e) q) es)) (nth q l zero).
Proof.
  induction es as [|e es IH]; intros l q Hq; cbn [fold_left filter map]; [reflexivity|].
  rewrite IH by (now rewrite add_at_length). unfold Sparse.add_at. rewrite nth_set_nth.
  apply Nat.ltb_lt in Hq. rewrite Hq, andb_true_r, Nat.eqb_sym.
  destruct (Nat.eqb_spec (fst e) q) as [<-|]; reflexivity.
Qed.

Lemma nth_repeat_all (a : A) n q : nth q (repeat a n) a = a.
Proof. revert q. induction n as [|n IH]; intros [|q]; cbn; auto. Qed.

Lemma filter_flat_key {B} (g : nat -> list B) (key : nat -> B -> nat) (val : B -> A) q j (p : B -> bool) : forall n s,
  (forall j' b, s <= j' < s + n -> In b (g j') -> Nat.eqb (key j' b) q = Nat.eqb j' j && p b) ->
  map snd (filter (fun e => Nat.eqb (fst e) q) (flat_map (fun j' => map (fun b => (key j' b, val b)) (g j')) (seq s n))) =
  if (s <=? j) && (j <? s + n) then map val (filter p (g j)) else [].
Proof.
  induction n as [|n IH]; intros s H; cbn [seq flat_map].
  - cbn [filter map]. rewrite Nat.add_0_r. destruct (Nat.leb_spec s j); cbn [andb]; [|reflexivity]. destruct (Nat.ltb_spec j s); [lia|reflexivity].
  - rewrite filter_app, map_app, IH by (intros; apply H; auto; lia).
    rewrite filter_map_comm, map_map. cbn [fst snd].
    destruct (Nat.eqb_spec s j) as [->|Hne].
    + assert (S j <=? j = false) as -> by (apply Nat.leb_gt; lia). cbn [andb]. rewrite app_nil_r.
      assert (j <=? j = true) as -> by (apply Nat.leb_le; lia). assert (j <? j + S n = true) as -> by (apply Nat.ltb_lt; lia).
      cbn [andb]. f_equal. apply filter_ext_In. intros b Hb. rewrite H by (auto; lia). rewrite Nat.eqb_refl. reflexivity.
    + rewrite filter_none.
      2: { intros b Hb. rewrite H by (auto; lia). apply Nat.eqb_neq in Hne. now rewrite Hne. }
      cbn [map app]. assert ((S s <=? j) && (j <? S s + n) = (s <=? j) && (j <? s + S n)) as ->; [|reflexivity].
      apply eq_true_iff_eq. rewrite !andb_true_iff, !Nat.leb_le, !Nat.ltb_lt. lia.
Qed.

Lemma flat_key C i j i' j' : j < C -> j' < C -> Nat.eqb (i' * C + j') (i * C + j) = Nat.eqb i' i && Nat.eqb j' j.
Proof.
  intros H1 H2. apply eq_true_iff_eq. rewrite andb_true_iff, !Nat.eqb_eq. split; [|intros [-> ->]; reflexivity].
  intros E. assert (i' = i) as -> by nia. split; lia.
Qed.

Lemma toarray_length M : length (a_data (toarray M)) = s_rows M * s_cols M.
Proof. unfold Sparse.toarray. cbn [a_data]. now rewrite fold_add_length, repeat_length. Qed.

Lemma toarray_nth M i j : s_ok M -> i < s_rows M -> j < s_cols M ->
  nth (i * s_cols M + j) (a_data (toarray M)) zero = entry M i j.
Proof.
  intros Hok Hi Hj. unfold Sparse.toarray. cbn [a_data].
  rewrite fold_add_nth by (rewrite repeat_length; nia). rewrite nth_repeat_all, entry_stored. f_equal.
  destruct M as [c|c]; cbn [s_rows s_cols s_ok stored] in *.
  - rewrite (filter_flat_key (lane c) (fun i' e => i' * k_minor c + fst e) snd _ i (fun e => Nat.eqb (fst e) j)).
    + cbn [Nat.leb andb Nat.add]. apply Nat.ltb_lt in Hi. rewrite Hi. apply lane_stored, Hok.
    + intros i' e _ He. apply flat_key; [lia|]. eapply lane_minor; eauto.
  - rewrite (filter_flat_key (lane c) (fun j' e => fst e * k_major c + j') snd _ j (fun e => Nat.eqb (fst e) i)).
    + cbn [Nat.leb andb Nat.add]. apply Nat.ltb_lt in Hj. rewrite Hj. apply lane_stored, Hok.
    + intros j' e H _. rewrite flat_key by lia. apply andb_comm.
Qed.

Lemma entry_out M i j : s_ok M -> s_rows M <= i \/ s_cols M <= j -> entry M i j = zero.
Proof.
  intros H Ho. rewrite entry_stored. destruct M as [c|c]; cbn [s_ok s_rows s_cols stored] in *;
    rewrite stored_out by (auto; lia); reflexivity.
Qed.

Lemma entry_csc M i j : s_ok M -> entry (to_csc M) i j = entry M i j.
Proof.
  intros H. rewrite !entry_stored. rewrite <- !csc_lane_stored by (auto using csc_ok). now rewrite csc_lane_csc.
Qed.

(** One-column matrices. *)

Lemma one_lane_data dt n l : (forall e, In e l -> fst e < n) ->
  a_data (toarray (Csc (of_lanes dt n [l]))) =
  map (fun i => fold_left add (map snd (filter (fun e => Nat.eqb (fst e) i) l)) zero) (seq 0 n).
Proof.
  intros H. set (M := Csc (of_lanes dt n [l])).
  assert (s_ok M) as Hok by (cbn; apply of_lanes_ok; intros l' e [<-|[]]; auto).
  apply (nth_ext _ _ zero zero).
  - rewrite toarray_length, map_length, seq_length. cbn. lia.
  - intros i Hi. rewrite toarray_length in Hi. change (s_cols M) with 1 in Hi. change (s_rows M) with n in Hi.
    pose proof (toarray_nth M i 0 Hok) as E. change (s_cols M) with 1 in E. change (s_rows M) with n in E.
    rewrite Nat.mul_1_r, Nat.add_0_r in E. rewrite E by lia. rewrite nth_seq_map by lia.
    rewrite entry_stored, <- (csc_lane_stored zero M i 0 Hok). unfold csc_lane. cbn [M to_csc]. rewrite lane_of_lanes. reflexivity.
Qed.

Lemma to_array_column dt n l : (forall e, In e l -> fst e < n) ->
  as_vector (to_array (Csc (of_lanes dt n [l]))) =
  Ok (map (fun i => fold_left add (map snd (filter (fun e => Nat.eqb (fst e) i) l)) zero) (seq 0 n)).
Proof.
  intros H. rewrite <- (one_lane_data dt n l H). set (M := Csc _). unfold Sparse.to_array.
  assert (length (a_data (toarray M)) = n) as El by (rewrite toarray_length; cbn; lia).
  assert (a_shape (toarray M) = [n; 1]) as Es by reflexivity.
  rewrite Es. destruct n as [|[|n]].
  - unfold as_vector, squeeze. rewrite Es. reflexivity.
  - unfold as_vector, first_row. rewrite Es. cbn [tl a_shape nth a_data]. f_equal.
    rewrite <- El. apply firstn_all.
  - unfold as_vector, squeeze. rewrite Es. reflexivity.
Qed.

Lemma read_column_ok M d : s_ok M -> read_column zero add M d = Ok (map (fun i => entry M i d) (seq 0 (s_rows M))).
Proof.
  intros H. unfold read_column, column. rewrite to_array_column by (intros e He; eapply csc_lane_minor; eauto).
  f_equal. apply map_ext. intros i. now rewrite (csc_lane_stored zero), entry_stored.
Qed.

Lemma where_eq_one (idx : list nat) p i : forall s, s <= p < s + length idx ->
  filter (fun q => Nat.eqb q p) (where_from s (map (Nat.eqb i) idx)) = if Nat.eqb (nth (p - s) idx 0) i then [p] else [].
Proof.
  induction idx as [|k idx IH]; intros s Hs; cbn [length] in Hs; [lia|]. cbn [map where_from].
  destruct (Nat.eq_dec s p) as [->|Hne].
  - rewrite Nat.sub_diag. cbn [nth]. rewrite Nat.eqb_sym.
    assert (filter (fun q => Nat.eqb q p) (where_from (S p) (map (Nat.eqb i) idx)) = []) as E.
    { apply filter_none. intros q Hq. apply where_from_lb in Hq. apply Nat.eqb_neq. lia. }
    destruct (Nat.eqb k i); cbn [filter]; [rewrite Nat.eqb_refl|]; now rewrite E.
  - replace (p - s) with (S (p - S s)) by lia. cbn [nth]. rewrite <- IH by lia.
    destruct (Nat.eqb i k); [|reflexivity]. cbn [filter]. destruct (Nat.eqb_spec s p); [lia|reflexivity].
Qed.

Lemma pick_filter (idx : list nat) (l : list (nat * A)) p : p < length idx ->
  map snd (filter (fun e => Nat.eqb (fst e) p) (pick idx l)) = map snd (filter (fun e => Nat.eqb (fst e) (nth p idx 0)) l).
Proof.
  intros Hp. unfold pick. induction l as [|e l IH]; [reflexivity|]. cbn [flat_map filter].
  rewrite filter_app, map_app, IH. rewrite filter_map_comm, map_map. cbn [fst snd].
  unfold np_where. rewrite where_eq_one by lia. rewrite Nat.sub_0_r, Nat.eqb_sym.
  destruct (Nat.eqb (fst e) (nth p idx 0)); reflexivity.
Qed.

Lemma pick_minor (idx : list nat) (l : list (nat * A)) e : In e (pick idx l) -> fst e < length idx.
Proof.
  intros H. apply in_flat_map in H as (e' & _ & H). apply in_map_iff in H as (p & <- & H).
  apply np_where_In in H. cbn. assert (nth_error (map (Nat.eqb (fst e')) idx) p <> None) as H1 by (rewrite H; discriminate).
  apply nth_error_Some in H1. now rewrite map_length in H1.
Qed.

Lemma map_nth_seq {B} (f : nat -> B) (idx : list nat) : map (fun p => f (nth p idx 0)) (seq 0 (length idx)) = map f idx.
Proof.
  apply (nth_ext _ _ (f 0) (f 0)); [now rewrite !map_length, seq_length|]. intros k Hk. rewrite map_length, seq_length in Hk.
  rewrite nth_seq_map by lia. now rewrite map_nth.
Qed.

Lemma read_rows_ok M idx d : s_ok M -> read_rows zero add M idx d = Ok (map (fun i => entry M i d) idx).
Proof.
  intros H. unfold read_rows, select. rewrite to_array_column by (intros e He; eapply pick_minor; eauto).
  f_equal. rewrite <- (map_nth_seq (fun i => entry M i d) idx). apply map_ext_in. intros p Hp. apply in_seq in Hp.
  rewrite pick_filter by lia. now rewrite (csc_lane_stored zero), entry_stored.
Qed.

Variable total : list A -> A.
Notation adds_up := (adds_up zero add total).

Lemma read_at_ok M i d : adds_up M -> s_ok M -> read_at total M i d = entry M i d.
Proof. intros Ht H. unfold read_at. now rewrite (csc_lane_stored zero), Ht by auto. Qed.

Lemma stored_csc M i j : s_ok M -> stored zero (to_csc M) i j = stored zero M i j.
Proof. intros H. rewrite <- !csc_lane_stored by (auto using csc_ok). now rewrite csc_lane_csc. Qed.
Lemma adds_up_csc M : adds_up M -> s_ok M -> adds_up (to_csc M).
Proof. intros Ht H i j. rewrite stored_csc, Ht by auto. symmetry. now apply entry_csc. Qed.

(** ** Fitting *)

Section Fit.
Context {V Y P S NM : Type}.
Variable F : feat A V.
Variable L : lik Y P S.
Variable y : nat -> Y.
Variable names : list NM.

Lemma sscan_dim_eq M lvl prior n bst row : s_ok M ->
  sscan_dim zero add F L y M lvl prior n bst row = Ok (scan_dim F L (entry M) y lvl prior n bst row).
Proof.
  intros H. destruct row as [dim idx]. unfold sscan_dim, scan_dim. rewrite read_rows_ok by auto. cbn [rbind].
  unfold gather. destruct (split_positions (f_gap F) _); [reflexivity|].
  destruct (nth_error _ _); [|reflexivity]. destruct (nth_error _ _); [|reflexivity]. destruct (l_gt L _ _); reflexivity.
Qed.

Lemma sscan_eq M lvl prior idxs ns : s_ok M ->
  sscan zero add F L y M lvl prior idxs ns = Ok (scan F L (entry M) y lvl prior idxs ns).
Proof.
  intros H. unfold sscan, scan. generalize (combine (seq 0 (length idxs)) idxs) as rows. generalize (mkBest ns (-1)%Z (-1)%Z) as b.
  intros b rows. revert b. induction rows as [|r rows IH]; intros b; cbn [fold_left]; [reflexivity|].
  cbn [rbind]. rewrite sscan_dim_eq by auto. apply IH.
Qed.

Lemma sfit_eq M fuel : adds_up M -> s_ok M -> forall lvl pa idxs,
  sfit zero add total F L y names fuel M lvl pa idxs = pfit F L (entry M) y names fuel lvl pa idxs.
Proof.
  intros Ht H. assert (forall fuel M', to_csc M' = to_csc M -> forall lvl pa idxs,
    sfit zero add total F L y names fuel M' lvl pa idxs = pfit F L (entry M) y names fuel lvl pa idxs) as G; [|auto].
  clear fuel. induction fuel as [|fuel IH]; intros M' E lvl pa idxs; cbn [sfit pfit]; [reflexivity|].
  destruct idxs as [|row0 idxs]; [reflexivity|]. rewrite E.
  rewrite sscan_eq by (now apply csc_ok).
  assert (entry (to_csc M) = entry M) as -> by (extensionality i; extensionality j; now apply entry_csc). cbn [rbind].
  set (bst := scan _ _ _ _ _ _ _ _). destruct (0 <? b_idx bst)%Z; [|reflexivity].
  destruct (nth_error names _); [|reflexivity].
  rewrite !read_at_ok by (auto using csc_ok, adds_up_csc). rewrite !entry_csc by auto.
  destruct (sub_indices _ _) as [sub1|]; cbn [rbind]; [|reflexivity].
  destruct (sub_indices _ _) as [sub2|]; cbn [rbind]; [|reflexivity].
  rewrite !IH by (now rewrite to_csc_twice). reflexivity.
Qed.

Lemma sroot_eq M : s_ok M -> sroot_indices zero add F M = Ok (root_indices F (entry M) (s_rows M) (s_cols M)).
Proof.
  intros H. unfold sroot_indices, root_indices. induction (seq 0 (s_cols M)) as [|d ds IH]; cbn [fold_right map]; [reflexivity|].
  rewrite IH. rewrite read_column_ok by (now apply csc_ok). cbn [rbind]. rewrite rows_csc. do 4 f_equal.
  extensionality i. destruct (Nat.lt_ge_cases i (s_rows M)) as [Hi|Hi].
  - rewrite nth_seq_map by auto. now apply entry_csc.
  - rewrite nth_overflow by (rewrite map_length, seq_length; lia). symmetry. apply entry_out; auto.
Qed.

Lemma sparse_fit_root M lvl pa : adds_up M -> s_ok M ->
  sfit_root zero add total F L y names M lvl pa = pfit_root F L (entry M) y names lvl pa (s_rows M) (s_cols M).
Proof. intros Ht H. unfold sfit_root. rewrite sroot_eq by auto. cbn [rbind]. now apply sfit_eq. Qed.

Lemma schild_eq M idx d : s_ok M ->
  schild_indices zero add (NM := NM) F M idx d =
  Ok (np_where (map (pgo1 F (entry M) d) idx), np_where (map (pgo2 F (entry M) d) idx)).
Proof. intros H. unfold schild_indices. rewrite read_rows_ok by auto. cbn [rbind]. rewrite !map_map. reflexivity. Qed.

End Fit.
End Values.

(** ** Queries *)

Section Query.
Context {A D S P : Type}.
Variable kids : smat A -> list nat -> D -> res (list nat * list nat).
Variables go1 go2 : D -> nat -> bool.

Lemma spredict_eq {O} (val : ninfo P -> O) (t : tree D S P) M :
  (forall idx d, kids (to_csc M) idx d = Ok (np_where (map (go1 d) idx), np_where (map (go2 d) idx))) ->
  forall idx r, spredict_into kids val t M idx r = Ok (predict_into go1 go2 val t idx r).
Proof.
  intros H. assert (forall M', to_csc M' = to_csc M -> forall idx r,
    spredict_into kids val t M' idx r = Ok (predict_into go1 go2 val t idx r)) as G; [|auto].
  induction t as [i|i d no bs c1 IH1 c2 IH2]; intros M' E idx r; cbn [spredict_into predict_into]; [reflexivity|].
  rewrite E, H. cbn [rbind fst snd].
  destruct (0 <? length (np_where (map (go1 d) idx))).
  - rewrite IH1 by (now rewrite to_csc_twice). cbn [rbind].
    destruct (0 <? length (np_where (map (go2 d) idx))); [|reflexivity]. now rewrite IH2 by (now rewrite to_csc_twice).
  - cbn [rbind]. destruct (0 <? length (np_where (map (go2 d) idx))); [|reflexivity]. now rewrite IH2 by (now rewrite to_csc_twice).
Qed.

Lemma spaths_eq {St} (step : D -> bool -> St) (t : tree D S P) M :
  (forall idx d, kids (to_csc M) idx d = Ok (np_where (map (go1 d) idx), np_where (map (go2 d) idx))) ->
  forall idx refs h, supdate_paths kids step t M idx refs h = Ok (update_paths go1 go2 step t idx refs h).
Proof.
  intros H. assert (forall M', to_csc M' = to_csc M -> forall idx refs h,
    supdate_paths kids step t M' idx refs h = Ok (update_paths go1 go2 step t idx refs h)) as G; [|auto].
  induction t as [i|i d no bs c1 IH1 c2 IH2]; intros M' E idx refs h; cbn [supdate_paths update_paths]; [reflexivity|].
  rewrite E, H. cbn [rbind fst snd].
  destruct (_ && negb (is_leaf c1)).
  - rewrite IH1 by (now rewrite to_csc_twice). cbn [rbind].
    destruct (_ && negb (is_leaf c2)); [|reflexivity]. now rewrite IH2 by (now rewrite to_csc_twice).
  - cbn [rbind]. destruct (_ && negb (is_leaf c2)); [|reflexivity]. now rewrite IH2 by (now rewrite to_csc_twice).
Qed.
End Query.
