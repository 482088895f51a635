(** * PredictProofs: batch prediction and prediction paths against per-row routing. *)
From Coq Require Import Permutation.
From Verif Require Import Prelude Lists Tree Spec.

Section Predict.
Context {D S P : Type}.
Notation tree := (tree D S P).
Variables go1 go2 : D -> nat -> bool.

(** Value written for a single row (child 2 is written last). *)
Fixpoint lookup {O} (val : ninfo P -> O) (t : tree) (r : nat) : option O :=
  match t with
  | Leaf i => Some (val i)
  | Split _ d _ _ c1 c2 =>
      match (if go2 d r then lookup val c2 r else None) with
      | Some v => Some v
      | None => if go1 d r then lookup val c1 r else None
      end
  end.

Lemma predict_into_length {O} (val : ninfo P -> O) (t : tree) : forall idx y,
  length (predict_into go1 go2 val t idx y) = length y.
Proof.
  induction t as [i|i d a b c1 IH1 c2 IH2]; intros idx y; simpl.
  - apply fold_set_nth_length.
  - destruct (0 <? length (np_where (map (go1 d) idx))), (0 <? length (np_where (map (go2 d) idx)));
      rewrite ?IH2, ?IH1; auto.
Qed.

Lemma ltb_length_filter {A} (f : A -> bool) l :
  (0 <? length (np_where (map f l))) = existsb f l.
Proof.
  rewrite np_where_length_map. induction l as [|a l IH]; auto. simpl.
  destruct (f a); simpl; auto.
Qed.

Lemma existsb_false_filter {A} (f : A -> bool) l : existsb f l = false -> filter f l = [].
Proof.
  induction l as [|a l IH]; simpl; auto. intros H. apply orb_false_iff in H. destruct H as [-> H]. auto.
Qed.

Lemma predict_into_spec {O} (val : ninfo P -> O) (t : tree) : forall idx y r,
  nth_error (predict_into go1 go2 val t idx y) r =
  if mem r idx && Nat.ltb r (length y)
  then match lookup val t r with Some v => Some v | None => nth_error y r end
  else nth_error y r.
Proof.
  induction t as [i|i d a b c1 IH1 c2 IH2]; intros idx y r.
  - simpl. apply nth_error_fold_set.
  - cbn [predict_into]. rewrite !ltb_length_filter, !gather_where.
    set (y1 := if existsb (go1 d) idx
               then predict_into go1 go2 val c1 (filter (go1 d) idx) y else y).
    assert (H1 : nth_error y1 r = if mem r idx && go1 d r && Nat.ltb r (length y)
             then match lookup val c1 r with Some v => Some v | None => nth_error y r end
             else nth_error y r).
    { unfold y1. destruct (existsb (go1 d) idx) eqn:E.
      - rewrite IH1, mem_filter. reflexivity.
      - assert (mem r idx && go1 d r = false) as ->; auto.
        rewrite <- mem_filter, existsb_false_filter; auto. }
    assert (L1 : length y1 = length y).
    { unfold y1. destruct (existsb (go1 d) idx); rewrite ?predict_into_length; auto. }
    assert (H2 : nth_error (if existsb (go2 d) idx
               then predict_into go1 go2 val c2 (filter (go2 d) idx) y1 else y1) r
             = if mem r idx && go2 d r && Nat.ltb r (length y)
             then match lookup val c2 r with Some v => Some v | None => nth_error y1 r end
             else nth_error y1 r).
    { destruct (existsb (go2 d) idx) eqn:E.
      - rewrite IH2, mem_filter, L1. reflexivity.
      - assert (mem r idx && go2 d r = false) as ->; auto.
        rewrite <- mem_filter, existsb_false_filter; auto. }
    rewrite H2, H1. cbn [lookup].
    destruct (mem r idx), (go1 d r), (go2 d r), (Nat.ltb r (length y)); simpl; auto;
      destruct (lookup val c2 r); auto; destruct (lookup val c1 r); auto.
Qed.

Lemma predict_rows_spec {O} (val : ninfo P -> O) (t : tree) n init :
  predict_rows go1 go2 val t n init =
  map (fun r => match lookup val t r with Some v => v | None => init end) (seq 0 n).
Proof.
  apply nth_error_ext. intros r. unfold predict_rows.
  rewrite predict_into_spec, nth_error_map, nth_error_seq, repeat_length.
  destruct (Nat.ltb_spec r n) as [H|H].
  - assert (mem r (seq 0 n) = true) as -> by (apply mem_In, in_seq; lia). simpl.
    destruct (lookup val t r); auto. apply nth_error_repeat'; auto.
  - rewrite andb_false_r. simpl. apply nth_error_None. rewrite repeat_length. auto.
Qed.

(** When exactly one comparison holds per split, [lookup] follows the unique path. *)
Lemma lookup_reaches {O} (val : ninfo P -> O) (t : tree) r :
  (forall d, In d (map (fun s => fst (fst s)) (splits t)) -> go2 d r = negb (go1 d r)) ->
  exists i, reaches (fun d => go1 d r = true) (fun d => go2 d r = true) t i /\ lookup val t r = Some (val i).
Proof.
  induction t as [i|i d a b c1 IH1 c2 IH2]; intros H.
  - exists i. split; [constructor|reflexivity].
  - simpl in H. assert (Hd : go2 d r = negb (go1 d r)) by (apply H; auto).
    destruct IH1 as (l1 & R1 & E1). { intros d' Hd'. apply H. right. rewrite map_app, in_app_iff. auto. }
    destruct IH2 as (l2 & R2 & E2). { intros d' Hd'. apply H. right. rewrite map_app, in_app_iff. auto. }
    simpl. destruct (go1 d r) eqn:G; simpl in Hd; rewrite Hd.
    + exists l1. split; auto. apply reaches_left; auto.
    + exists l2. rewrite E2. split; auto. apply reaches_right; auto.
Qed.

Lemma reaches_unique (left right : D -> Prop) (t : tree) i j :
  (forall d, left d -> right d -> False) ->
  reaches left right t i -> reaches left right t j -> i = j.
Proof.
  intros H R; revert j; induction R as [k|k d a b c1 c2 l Hl R IH|k d a b c1 c2 l Hr R IH]; intros j R'.
  - inversion R'; auto.
  - inversion R'; subst; auto. exfalso; eauto.
  - inversion R'; subst; auto. exfalso; eauto.
Qed.

(** Leaf list characterisation: a reached leaf is a leaf. *)
Lemma reaches_in_leaves (left right : D -> Prop) (t : tree) i :
  reaches left right t i -> In i (leaves t).
Proof. induction 1; simpl; auto; apply in_or_app; auto. Qed.

End Predict.
