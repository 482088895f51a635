(** * ValidateProofs: which targets pass validation. *)
From Coq Require Import Reals Lra Lia Sorted.
From Verif Require Import Prelude RealOps Validate.
Local Open Scope nat_scope.

(** ** np.unique *)
Lemma uinsert_In r l x : In x (uinsert r l) <-> x = r \/ In x l.
Proof.
  induction l as [|a l IH]; cbn [uinsert]; [simpl; intuition|]. unfold Rltb, Reqb. destruct (Rlt_dec r a); [simpl; intuition|].
  destruct (Req_EM_T r a) as [->|]; simpl; [intuition (subst; auto)|]. rewrite IH. intuition.
Qed.
Lemma uinsert_sorted r l : StronglySorted Rlt l -> StronglySorted Rlt (uinsert r l).
Proof.
  induction 1 as [|a l Hs IH Hf]; cbn [uinsert]; [repeat constructor|]. unfold Rltb, Reqb. destruct (Rlt_dec r a).
  - constructor; [constructor; auto|]. constructor; auto. rewrite Forall_forall in *. intros x Hx. specialize (Hf x Hx). lra.
  - destruct (Req_EM_T r a); [constructor; auto|]. constructor; auto. rewrite Forall_forall in *. intros x Hx.
    apply uinsert_In in Hx as [->|Hx]; auto. lra.
Qed.
Lemma unique_In l x : In x (fold_right uinsert [] l) <-> In x l.
Proof. induction l as [|a l IH]; cbn [fold_right In]; [tauto|]. rewrite uinsert_In, IH. intuition. Qed.
Lemma unique_sorted l : StronglySorted Rlt (fold_right uinsert [] l).
Proof. induction l; cbn [fold_right]; [constructor|apply uinsert_sorted; auto]. Qed.
Lemma numbers_In l x : In x (numbers l) <-> In (Some x) l.
Proof.
  induction l as [|[r|] l IH]; cbn [numbers In]; [tauto| |]; rewrite IH; [|intuition discriminate].
  split; (intros [H|H]; [left|right]); congruence.
Qed.
Lemma sorted_unique l1 : forall l2, StronglySorted Rlt l1 -> StronglySorted Rlt l2 -> (forall x, In x l1 <-> In x l2) -> l1 = l2.
Proof.
  induction l1 as [|a l1 IH]; intros [|b l2] H1 H2 H; auto.
  - exfalso. apply (H b). left; auto.
  - exfalso. apply (H a). left; auto.
  - apply StronglySorted_inv in H1 as [H1 F1]. apply StronglySorted_inv in H2 as [H2 F2]. rewrite Forall_forall in F1, F2.
    assert (a = b). { destruct (proj1 (H a) (or_introl eq_refl)) as [|Ha]; auto. destruct (proj2 (H b) (or_introl eq_refl)) as [|Hb]; auto.
      specialize (F1 _ Hb). specialize (F2 _ Ha). lra. }
    subst b. f_equal. apply IH; auto. intros x. split; intros Hx.
    + destruct (proj1 (H x) (or_intror Hx)) as [<-|]; auto. specialize (F1 _ Hx). lra.
    + destruct (proj2 (H x) (or_intror Hx)) as [<-|]; auto. specialize (F2 _ Hx). lra.
Qed.
Lemma labels_sorted k : forall i, StronglySorted Rlt (map INR (seq i k)).
Proof.
  induction k as [|k IH]; intros i; simpl; constructor; auto. apply Forall_forall. intros x Hx.
  apply in_map_iff in Hx as (j & <- & Hj). apply in_seq in Hj. apply lt_INR. lia.
Qed.

Lemma fl_eqb_eq a b : fl_eqb a b = true <-> a = b /\ a <> None.
Proof.
  destruct a as [x|], b as [z|]; cbn; unfold Reqb; try (split; [discriminate|intros [H ?]; congruence]).
  destruct (Req_EM_T x z); split; intros H; try discriminate; try tauto; [split; congruence|destruct H; congruence].
Qed.
Lemma all_equal_true (u v : list fl) : 2 <= length v -> NoDup v -> ~ In None v -> (all_equal u v = true <-> u = v).
Proof.
  intros Hk Hnd Hn. unfold all_equal. destruct (Nat.eqb (length u) (length v)) eqn:El.
  - apply Nat.eqb_eq in El. rewrite forallb_forall. clear Hk. revert v El Hn Hnd. induction u as [|a u IH]; intros [|b v] El Hn Hnd; try discriminate; [tauto|].
    injection El as El. inversion Hnd; subst. split.
    + intros H. pose proof (H (a, b) (or_introl eq_refl)) as Hab. cbn in Hab. apply fl_eqb_eq in Hab as [-> _]. f_equal.
      apply IH; auto. intros N; apply Hn; right; auto. intros p Hp. apply H. right; auto.
    + intros E [p q] [Epq|Hp]; injection E as -> ->; [injection Epq as <- <-|].
      * cbn [fst snd]. apply fl_eqb_eq. split; auto. intros ->. apply Hn. left; auto.
      * revert Hp. apply IH; auto. intros N; apply Hn; right; auto.
  - apply Nat.eqb_neq in El. split; [|intros ->; congruence].
    destruct u as [|a [|a' u]].
    + destruct v as [|b [|b' v]]; simpl in Hk; first [lia|discriminate].
    + destruct v as [|b [|b' v]]; cbn [length] in Hk; try lia. cbn [forallb]. rewrite !andb_true_iff, !fl_eqb_eq. intros ((-> & _) & (-> & _) & _).
      exfalso. inversion Hnd as [|? ? Hi _]; subst. apply Hi. left; auto.
    + destruct v as [|b [|b' v]]; cbn [length] in Hk; first [lia|discriminate].
Qed.
Lemma NoDup_labels k : NoDup (map (fun i => Some (INR i) : fl) (seq 0 k)).
Proof.
  assert (H : NoDup (seq 0 k)) by apply seq_NoDup. induction H as [|a l Hi Hn IH]; simpl; constructor; auto.
  intros Hx. apply in_map_iff in Hx as (j & E & Hj). injection E as E. apply INR_eq in E. congruence.
Qed.

Theorem labels_exact k data : 2 <= k ->
  (all_equal (np_unique data) (map (fun i => Some (INR i)) (seq 0 k)) = true <->
   forall v : fl, In v data <-> exists c, c < k /\ v = Some (INR c)).
Proof.
  intros Hk. rewrite all_equal_true.
  2:{ rewrite map_length, seq_length. exact Hk. }
  2:{ apply NoDup_labels. }
  2:{ intros H. apply in_map_iff in H as (j & E & _). discriminate. }
  unfold np_unique. set (nums := fold_right uinsert [] (numbers data)).
  assert (Hex : existsb is_nan data = true <-> In None data).
  { rewrite existsb_exists. split; [intros ([r|] & H & E); [discriminate|exact H]|intros H; exists None; auto]. }
  assert (Hnums : forall r, In r nums <-> In (Some r) data).
  { intros r. unfold nums. rewrite unique_In, numbers_In. tauto. }
  split.
  - intros E v.
    assert (Hv : In v data <-> In v (map (fun i => Some (INR i) : fl) (seq 0 k))).
    { match type of E with ?l = _ => assert (E' : l = map (fun i => Some (INR i) : fl) (seq 0 k)) by exact E end.
      rewrite <- E', in_app_iff, in_map_iff. destruct v as [r|].
      - rewrite <- Hnums. split; [intros H; left; exists r; auto|]. intros [(r' & [= ->] & H)|H]; auto.
        destruct (existsb is_nan data); simpl in H; intuition discriminate.
      - rewrite <- Hex. destruct (existsb is_nan data); split; intros H; auto; try discriminate.
        + right. left. auto.
        + destruct H as [(r & [=] & _)|[]]. }
    rewrite Hv, in_map_iff. split; [intros (c & <- & Hc); apply in_seq in Hc; exists c; split; [lia|auto]|].
    intros (c & Hc & ->). exists c. split; auto. apply in_seq. lia.
  - intros H. assert (Hnone : existsb is_nan data = false).
    { destruct (existsb is_nan data); auto. destruct (proj1 (H None) (proj1 Hex eq_refl)) as (c & _ & [=]). }
    rewrite Hnone, app_nil_r. rewrite <- (map_map INR (fun r => Some r : fl)). change (map Some nums = map Some (map INR (seq 0 k))). f_equal. apply sorted_unique; [apply unique_sorted|apply labels_sorted|].
    intros r. rewrite Hnums, H, in_map_iff. split.
    + intros (c & Hc & [= ->]). exists c. split; auto. apply in_seq. lia.
    + intros (c & <- & Hc). apply in_seq in Hc. exists c. split; [lia|auto].
Qed.

Theorem clf_target_exact {P} (n_classes : P -> nat) p (y : arr fl) : 2 <= n_classes p ->
  (clf_check_target n_classes (Some p) y = Ok tt <->
     ndim y = 1 /\ forall v, In v (a_data y) <-> exists c, c < n_classes p /\ v = Some (INR c)) /\
  (clf_check_target n_classes (Some p) y <> Ok tt -> clf_check_target n_classes (Some p) y = Err ValueError).
Proof.
  intros Hk. unfold clf_check_target. destruct (Nat.eqb (ndim y) 1) eqn:En; cbn [negb].
  - apply Nat.eqb_eq in En. rewrite <- (labels_exact (n_classes p) (a_data y) Hk).
    destruct (all_equal _ _); split; [tauto|congruence|split; [discriminate|intros [_ [=]]]|auto].
  - apply Nat.eqb_neq in En. split; [split; [discriminate|tauto]|auto].
Qed.
(** An empty prior accepts every constant target. *)
Theorem empty_prior_target r n t : clf_check_target (@length R) (Some []) (mkArr [S n] t (repeat (Some r) (S n))) = Ok tt.
Proof.
  unfold clf_check_target. cbn [ndim a_shape length Nat.eqb negb a_data].
  assert (Hn : forall m, numbers (repeat (Some r) m) = repeat r m) by (induction m; simpl; congruence).
  assert (Hx : forall m, existsb is_nan (repeat (Some r) m) = false) by (induction m; auto).
  assert (Hu : forall m, fold_right uinsert [] (repeat r (S m)) = [r]).
  { induction m as [|m IH]; [reflexivity|]. cbn [repeat fold_right] in *. rewrite IH. cbn [uinsert]. unfold Rltb, Reqb.
    destruct (Rlt_dec r r); [lra|]. destruct (Req_EM_T r r); [auto|congruence]. }
  unfold np_unique. rewrite Hn, Hx, Hu. reflexivity.
Qed.

(** ** Targets with a single entry *)
Lemma squeeze_ones {E} (y : arr E) : Forall (fun n => n = 1) (a_shape y) -> a_shape (squeeze y) = [].
Proof. unfold squeeze. cbn [a_shape]. induction 1 as [|n l -> Hl IH]; auto. Qed.
Section Fit.
Context {E A Y NM P : Type}.
Variable cx : cast E A.
Variable x_name : nat -> NM.
Lemma one_target (cy : cast E fl) check x y names : (forall z, ndim z = 0 -> check z = Err ValueError) ->
  Forall (fun n => n = 1) (a_shape y) -> supported (a_dtype y) = true ->
  validate cx cy x_name check x y names = Err ValueError.
Proof.
  intros Hc Hy Ht. unfold validate, ensure_float64. change (a_dtype (squeeze y)) with (a_dtype y). rewrite Ht. cbn [rbind].
  rewrite Hc; [reflexivity|]. unfold ndim. cbn [a_shape]. rewrite (squeeze_ones y Hy). reflexivity.
Qed.
Lemma clf_check_0d (n_classes : P -> nat) pa z : ndim z = 0 -> clf_check_target n_classes pa z = Err ValueError.
Proof. intros H. unfold clf_check_target. rewrite H. reflexivity. Qed.
Lemma reg_check_0d z : ndim z = 0 -> reg_check_target z = Err ValueError.
Proof. intros H. unfold reg_check_target. rewrite H. reflexivity. Qed.
(** Without a prior no target passes the classification check. *)
Lemma no_prior (cy : cast E fl) (n_classes : P -> nat) x y names :
  exists e, validate cx cy x_name (clf_check_target n_classes None) x y names = Err e.
Proof.
  unfold validate. destruct (ensure_float64 cy (squeeze y)) as [z|e]; cbn [rbind]; [|eauto].
  unfold clf_check_target. destruct (negb (Nat.eqb (ndim z) 1)); cbn [rbind]; eauto.
Qed.
Lemma no_prior_type (cy : cast E fl) (n_classes : P -> nat) x y names : ndim (squeeze y) = 1 -> supported (a_dtype y) = true ->
  validate cx cy x_name (clf_check_target n_classes None) x y names = Err TypeError.
Proof.
  intros Hn Ht. unfold validate, ensure_float64. change (a_dtype (squeeze y)) with (a_dtype y). rewrite Ht. cbn [rbind].
  unfold clf_check_target. unfold ndim in *. cbn [a_shape squeeze] in *. rewrite Hn. reflexivity.
Qed.
(** A wrong set of labels. *)
Lemma wrong_labels (cy : cast E fl) (n_classes : P -> nat) p x y names : supported (a_dtype y) = true -> 2 <= n_classes p ->
  ~ (ndim (squeeze y) = 1 /\ forall v, In v (map (as_is cy) (a_data y)) <-> exists c, c < n_classes p /\ v = Some (INR c)) ->
  validate cx cy x_name (clf_check_target n_classes (Some p)) x y names = Err ValueError.
Proof.
  intros Ht Hk Hn. unfold validate, ensure_float64. change (a_dtype (squeeze y)) with (a_dtype y). rewrite Ht. cbn [rbind].
  match goal with |- context [clf_check_target n_classes (Some p) ?z] => destruct (clf_target_exact n_classes p z Hk) as [H1 H2]; rewrite H2; [reflexivity|] end.
  rewrite H1. exact Hn.
Qed.
(** A right set of labels passes the target check: all further errors come from the matrix. *)
Lemma right_labels (cy : cast E fl) (n_classes : P -> nat) p x y names : supported (a_dtype y) = true -> 2 <= n_classes p ->
  (ndim (squeeze y) = 1 /\ forall v, In v (map (as_is cy) (a_data y)) <-> exists c, c < n_classes p /\ v = Some (INR c)) ->
  validate cx cy x_name (clf_check_target n_classes (Some p)) x y names = validate cx cy x_name (fun _ => Ok tt) x y names.
Proof.
  intros Ht Hk Hn. unfold validate, ensure_float64. change (a_dtype (squeeze y)) with (a_dtype y). rewrite Ht. cbn [rbind].
  match goal with |- context [clf_check_target n_classes (Some p) ?z] => destruct (clf_target_exact n_classes p z Hk) as [H1 H2] end.
  rewrite (proj2 H1 Hn). reflexivity.
Qed.
End Fit.
