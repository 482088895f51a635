(** * Lists: facts about the NumPy primitives of Prelude.v. *)
From Coq Require Import Permutation Sorted.
From Verif Require Import Prelude.

Lemma where_from_gather (l : list nat) (f : nat -> bool) : forall pre,
  map (fun p => nth p (pre ++ l) 0) (where_from (length pre) (map f l)) = filter f l.
Proof.
  induction l as [|a l IH]; intros pre; simpl; auto.
  assert (E : pre ++ a :: l = (pre ++ [a]) ++ l) by (rewrite <- app_assoc; reflexivity).
  specialize (IH (pre ++ [a])). rewrite app_length in IH. simpl in IH.
  rewrite Nat.add_1_r in IH. rewrite <- E in IH.
  destruct (f a); simpl; rewrite IH; auto.
  f_equal. rewrite app_nth2, Nat.sub_diag; auto.
Qed.

Lemma gather_where (l : list nat) (f : nat -> bool) :
  gather_idx l (np_where (map f l)) = filter f l.
Proof. exact (where_from_gather l f []). Qed.

Lemma where_from_In k mask p :
  In p (where_from k mask) <-> k <= p /\ nth_error mask (p - k) = Some true.
Proof.
  revert k; induction mask as [|b m IH]; intros k; simpl.
  - split; [easy|]. intros [_ H]. destruct (p - k); discriminate.
  - assert (Hh : (if b then k :: where_from (S k) m else where_from (S k) m)
             = (if b then [k] else []) ++ where_from (S k) m) by (destruct b; auto).
    rewrite Hh, in_app_iff, IH. clear Hh IH. split.
    + intros [H|[H1 H2]].
      * destruct b; [|easy]. destruct H as [<-|[]]. rewrite Nat.sub_diag. auto.
      * split; [lia|]. replace (p - k) with (S (p - S k)) by lia. auto.
    + intros [H1 H2]. destruct (Nat.eq_dec p k) as [->|Hn].
      * rewrite Nat.sub_diag in H2. simpl in H2. injection H2 as ->. left; left; auto.
      * right. split; [lia|]. replace (p - k) with (S (p - S k)) in H2 by lia. auto.
Qed.

Lemma np_where_In mask p : In p (np_where mask) <-> nth_error mask p = Some true.
Proof.
  unfold np_where. rewrite where_from_In. rewrite Nat.sub_0_r. intuition lia.
Qed.

Lemma where_from_lb k mask p : In p (where_from k mask) -> k <= p.
Proof. intros H; apply where_from_In in H; tauto. Qed.

Lemma where_from_sorted k mask : StronglySorted lt (where_from k mask).
Proof.
  revert k; induction mask as [|b m IH]; intros k; simpl; [constructor|].
  destruct b; auto. constructor; auto.
  apply Forall_forall. intros p Hp. apply where_from_lb in Hp. lia.
Qed.

Lemma where_from_length k mask : length (where_from k mask) = length (filter (fun b => b) mask).
Proof. revert k; induction mask as [|[] m IH]; intros k; simpl; auto. Qed.

Lemma np_where_length_map {A} (f : A -> bool) l : length (np_where (map f l)) = length (filter f l).
Proof.
  unfold np_where. rewrite where_from_length. induction l as [|a l IH]; simpl; auto.
  destruct (f a); simpl; auto.
Qed.

Lemma adjacent_length {A} (g : A -> A -> bool) l : length (adjacent g l) = length l - 1.
Proof.
  induction l as [|a l IH]; auto. destruct l as [|b l]; auto.
  change (adjacent g (a :: b :: l)) with (g a b :: adjacent g (b :: l)).
  change (S (length (adjacent g (b :: l))) = length (a :: b :: l) - 1).
  rewrite IH. simpl. lia.
Qed.

Lemma adjacent_nth {A} (g : A -> A -> bool) l p b :
  nth_error (adjacent g l) p = Some b <->
  exists x z, nth_error l p = Some x /\ nth_error l (S p) = Some z /\ b = g x z.
Proof.
  revert p; induction l as [|a l IH]; intros p.
  - simpl. split. destruct p; discriminate. intros (x & z & H & _). destruct p; discriminate.
  - destruct l as [|c l].
    + simpl. split. destruct p; discriminate.
      intros (x & z & _ & H & _). destruct p; discriminate.
    + change (adjacent g (a :: c :: l)) with (g a c :: adjacent g (c :: l)).
      destruct p as [|p].
      * simpl. split.
        -- intros H. injection H as <-. exists a, c. auto.
        -- intros (x & z & Hx & Hz & ->). injection Hx as <-. injection Hz as <-. auto.
      * simpl nth_error at 1. rewrite IH. simpl nth_error. reflexivity.
Qed.

(** [set_nth] *)
Lemma set_nth_length {A} k (v : A) l : length (set_nth k v l) = length l.
Proof. revert k; induction l; intros [|k]; simpl; auto. Qed.

Lemma nth_error_set_nth {A} k (v : A) l j :
  nth_error (set_nth k v l) j = if Nat.eqb k j && Nat.ltb k (length l) then Some v else nth_error l j.
Proof.
  revert k j; induction l as [|a l IH]; intros k j; simpl.
  - destruct k, j; simpl; rewrite ?andb_false_r; auto.
  - destruct k, j; simpl; auto. rewrite IH. destruct (Nat.eqb k j); auto.
Qed.

Lemma fold_set_nth_length {A} (v : A) idx l :
  length (fold_left (fun acc k => set_nth k v acc) idx l) = length l.
Proof. revert l; induction idx; intros l; simpl; auto. rewrite IHidx. apply set_nth_length. Qed.

Lemma nth_error_fold_set {A} (v : A) idx l j :
  nth_error (fold_left (fun acc k => set_nth k v acc) idx l) j =
  if mem j idx && Nat.ltb j (length l) then Some v else nth_error l j.
Proof.
  revert l; induction idx as [|k idx IH]; intros l; simpl; auto.
  rewrite IH, set_nth_length, nth_error_set_nth. rewrite (Nat.eqb_sym j k).
  destruct (Nat.eqb_spec k j) as [->|]; simpl.
  - destruct (Nat.ltb j (length l)) eqn:E; rewrite ?andb_true_r, ?andb_false_r; auto.
    destruct (mem j idx); auto.
  - reflexivity.
Qed.

Lemma mem_In i l : mem i l = true <-> In i l.
Proof.
  unfold mem. rewrite existsb_exists. split.
  - intros (x & Hx & E). apply Nat.eqb_eq in E. subst; auto.
  - intros H. exists i. split; auto. apply Nat.eqb_refl.
Qed.
Lemma mem_not_In i l : mem i l = false <-> ~ In i l.
Proof. rewrite <- mem_In. destruct (mem i l); intuition congruence. Qed.

Lemma mem_filter j f l : mem j (filter f l) = mem j l && f j.
Proof.
  apply Bool.eq_iff_eq_true. rewrite andb_true_iff, !mem_In, filter_In. reflexivity.
Qed.

(** chunks / reshape *)
Lemma chunks_concat {A} w (ls : list (list A)) :
  Forall (fun l => length l = w) ls -> chunks (length ls) w (concat ls) = ls.
Proof.
  induction 1 as [|l ls Hl _ IH]; simpl; auto.
  rewrite <- Hl at 1 3. rewrite firstn_app, skipn_app, Nat.sub_diag, firstn_all, skipn_all.
  simpl. rewrite app_nil_r, IH. reflexivity.
Qed.

Lemma concat_length_uniform {A} w (ls : list (list A)) :
  Forall (fun l => length l = w) ls -> length (concat ls) = length ls * w.
Proof. induction 1; simpl; auto. rewrite app_length. lia. Qed.

Lemma reshape_concat {A} w (ls : list (list A)) :
  ls <> [] -> Forall (fun l => length l = w) ls -> reshape_rows (length ls) (concat ls) = Ok ls.
Proof.
  intros Hn H. unfold reshape_rows. rewrite (concat_length_uniform w ls H).
  destruct ls as [|l ls]; [congruence|].
  set (n := length (l :: ls)). assert (Hn0 : n <> 0) by (unfold n; simpl; lia).
  assert (E : (n * w) mod n = 0) by (rewrite Nat.mul_comm; apply Nat.mod_mul; auto).
  rewrite E, (Nat.mul_comm n w), Nat.div_mul by auto.
  destruct n eqn:En; [congruence|]. rewrite Nat.eqb_refl. rewrite <- En. f_equal.
  apply chunks_concat; auto.
Qed.

Lemma filter_concat {A} (f : A -> bool) ls : filter f (concat ls) = concat (map (filter f) ls).
Proof. induction ls; simpl; auto. rewrite filter_app, IHls. auto. Qed.

Lemma Permutation_filter {A} (f : A -> bool) l m :
  Permutation l m -> Permutation (filter f l) (filter f m).
Proof.
  induction 1; simpl; auto.
  - destruct (f x); auto.
  - destruct (f x), (f y); auto. constructor.
  - etransitivity; eauto.
Qed.

Lemma filter_mem_perm (l row : list nat) :
  NoDup row -> NoDup l -> incl l row -> Permutation (filter (fun i => mem i l) row) l.
Proof.
  intros H1 H2 H3. apply NoDup_Permutation; auto. apply NoDup_filter; auto.
  intros x. rewrite filter_In, mem_In. split; [tauto|]. auto.
Qed.

Lemma nth_error_seq n len k : nth_error (seq n len) k = if Nat.ltb k len then Some (n + k) else None.
Proof.
  revert n k; induction len as [|len IH]; intros n k; simpl.
  - destruct k; auto.
  - destruct k; simpl. f_equal; lia. rewrite IH.
    change (S k <? S len) with (k <? len). destruct (k <? len); auto. f_equal; lia.
Qed.

Lemma combine_seq_In {A} (l : list A) s d r :
  In (d, r) (combine (seq s (length l)) l) <-> s <= d /\ nth_error l (d - s) = Some r.
Proof.
  revert s; induction l as [|a l IH]; intros s; simpl.
  - split; [easy|]. intros [_ H]. destruct (d - s); discriminate.
  - rewrite IH. split.
    + intros [[= <- <-]|[H1 H2]]. rewrite Nat.sub_diag; auto.
      split; [lia|]. replace (d - s) with (S (d - S s)) by lia. auto.
    + intros [H1 H2]. destruct (Nat.eq_dec d s) as [->|].
      * rewrite Nat.sub_diag in H2. injection H2 as ->. auto.
      * right. split; [lia|]. replace (d - s) with (S (d - S s)) in H2 by lia. auto.
Qed.

(** argmax for a strict order given by [gt] *)
Lemma argmax_from_range {S} (gt : S -> S -> bool) l best ib i :
  ib < i -> argmax_from gt best ib i l < i + length l.
Proof.
  revert best ib i; induction l as [|s l IH]; intros best ib i H; simpl; [lia|].
  destruct (gt s best).
  - specialize (IH s i (Datatypes.S i) ltac:(lia)). lia.
  - specialize (IH best ib (Datatypes.S i) ltac:(lia)). lia.
Qed.

Lemma argmax_range {S} (gt : S -> S -> bool) l : l <> [] -> argmax gt l < length l.
Proof.
  destruct l as [|s l]; [congruence|]. intros _. unfold argmax.
  pose proof (argmax_from_range gt l s 0 1 ltac:(lia)). simpl. lia.
Qed.

(** Sorted lists and positions *)
Lemma StronglySorted_nth {A} (R : A -> A -> Prop) l i j a b :
  StronglySorted R l -> i < j -> nth_error l i = Some a -> nth_error l j = Some b -> R a b.
Proof.
  intros H; revert i j; induction H as [|x l Hs IH Hf]; intros i j Hij Ha Hb.
  - destruct i; discriminate.
  - destruct j as [|j]; [lia|]. simpl in Hb. destruct i as [|i].
    + injection Ha as ->. rewrite Forall_forall in Hf. apply Hf. eapply nth_error_In; eauto.
    + simpl in Ha. apply (IH i j); auto; lia.
Qed.

Lemma StronglySorted_filter {A} (R : A -> A -> Prop) f l :
  StronglySorted R l -> StronglySorted R (filter f l).
Proof.
  induction 1 as [|x l Hs IH Hf]; simpl; [constructor|].
  destruct (f x); auto. constructor; auto.
  rewrite Forall_forall in *. intros z Hz. apply filter_In in Hz. apply Hf; tauto.
Qed.

Lemma in_firstn_nth {A} (x : A) k l : In x (firstn k l) -> exists i, i < k /\ nth_error l i = Some x.
Proof.
  intros H. apply In_nth_error in H. destruct H as [i Hi].
  assert (i < length (firstn k l)) by (apply nth_error_Some; congruence).
  rewrite firstn_length in H. exists i. split; [lia|].
  rewrite <- (firstn_skipn k l), nth_error_app1; auto. rewrite firstn_length. lia.
Qed.

Lemma in_skipn_nth {A} (x : A) k l : In x (skipn k l) -> exists i, k <= i /\ nth_error l i = Some x.
Proof.
  intros H. apply In_nth_error in H. destruct H as [i Hi].
  assert (Hl : k <= length l).
  { destruct (le_lt_dec k (length l)); auto. rewrite skipn_all2 in Hi by lia. destruct i; discriminate. }
  exists (k + i). split; [lia|].
  rewrite <- (firstn_skipn k l), nth_error_app2; rewrite firstn_length_le by auto; [|lia].
  replace (k + i - k) with i by lia. auto.
Qed.

Lemma last_nth {A} (l : list A) d : last l d = nth (length l - 1) l d.
Proof.
  induction l as [|a l IH]; auto. destruct l as [|b l]; auto.
  change (last (a :: b :: l) d) with (last (b :: l) d). rewrite IH.
  simpl. rewrite Nat.sub_0_r. reflexivity.
Qed.

Lemma last_firstn {A} (l : list A) k d : 0 < k <= length l -> last (firstn k l) d = nth (k - 1) l d.
Proof.
  intros H. rewrite last_nth. rewrite firstn_length_le by lia.
  rewrite <- (firstn_skipn k l) at 2. rewrite app_nth1; auto. rewrite firstn_length_le; lia.
Qed.

Lemma hd_skipn {A} (l : list A) k d : hd d (skipn k l) = nth k l d.
Proof. revert k; induction l; intros [|k]; simpl; auto. Qed.

Lemma NoDup_app_disjoint {A} (l m : list A) : NoDup (l ++ m) -> forall x, In x l -> In x m -> False.
Proof.
  induction l as [|a l IH]; simpl; intros H x Hx Hm; [easy|].
  inversion H; subst. destruct Hx as [<-|Hx].
  - apply H2. apply in_or_app; auto.
  - eapply IH; eauto.
Qed.

Lemma nth_error_ext {A} (l m : list A) : (forall i, nth_error l i = nth_error m i) -> l = m.
Proof.
  revert m; induction l as [|a l IH]; intros [|b m] H; auto.
  - specialize (H 0); discriminate.
  - specialize (H 0); discriminate.
  - pose proof (H 0) as H0. injection H0 as ->. f_equal. apply IH. intros i. exact (H (S i)).
Qed.

Lemma nth_error_repeat' {A} (a : A) n i : i < n -> nth_error (repeat a n) i = Some a.
Proof. revert i; induction n; intros [|i] H; simpl; auto; try lia. apply IHn; lia. Qed.
