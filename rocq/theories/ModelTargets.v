(** * ModelTargets: which targets and priors [fit] accepts. *)
From Coq Require Import Reals Lia.
From Verif Require Import Prelude Tree Perp RealOps Clf Reg Api Spec FitProofs PruneProofs ApiSpec ApiProofs Hyper HyperSpec HyperProofs HyperApi
  Object ObjectSpec ObjectProofs Validate ValidateProofs Model ModelSpec ModelProofs ModelFit ModelLemmas ModelClasses.
Local Open Scope nat_scope.

(** Targets read by [lab]. *)
Definition read_labels {Y} (lab : Y -> fl) (y : arr Y) : arr fl := mkArr (a_shape y) (a_dtype y) (map lab (a_data y)).
(** [fit] checks targets as a classification (with [n_classes prior] classes) or a regression tree does. *)
Definition clf_checks {P Y} (n_classes : P -> nat) (lab : Y -> fl) (check : option P -> arr Y -> res unit) : Prop :=
  forall pa y, check pa y = clf_check_target n_classes pa (read_labels lab y).
Definition reg_checks {P Y} (lab : Y -> fl) (check : option P -> arr Y -> res unit) : Prop :=
  forall pa y, check pa y = reg_check_target (read_labels lab y).
(** The label set of a target array is exactly 0..k-1 and the array is one-dimensional up to axes of length 1. *)
Definition right_target {E Y} (cy : cast E Y) (lab : Y -> fl) (k : nat) (y : arr E) : Prop :=
  ndim (squeeze y) = 1 /\ forall v, In v (map (fun e => lab (as_is cy e)) (a_data y)) <-> exists c, c < k /\ v = Some (INR c).

Section Targets.
Context {E A Y P NM : Type}.
Variable cx : cast E A.
Variable cy : cast E Y.
Variable x_name : nat -> NM.
Variable lab : Y -> fl.
Variable n_classes : P -> nat.
Variable check : option P -> arr Y -> res unit.
Notation val pa x y names := (validate cx cy x_name (check pa) x y names).

Lemma reads_target (c : arr Y -> res unit) x y names : supported (a_dtype y) = true ->
  validate cx cy x_name c x y names =
  let! _ := c (mkArr (a_shape (squeeze y)) (a_dtype y) (map (as_is cy) (a_data y))) in
  let! p := normalize cx x_name x names in
  if Nat.eqb (len (fst p)) (len (squeeze y)) then Ok (mkValid (fst p) (mkArr (a_shape (squeeze y)) (a_dtype y) (map (as_is cy) (a_data y))) (snd p)) else Err ValueError.
Proof. intros Ht. unfold validate, ensure_float64. change (a_dtype (squeeze y)) with (a_dtype y). rewrite Ht. reflexivity. Qed.

Lemma one_target_clf pa x y names : clf_checks n_classes lab check -> Forall (fun n => n = 1) (a_shape y) -> supported (a_dtype y) = true ->
  val pa x y names = Err ValueError.
Proof.
  intros Hc Hy Ht. rewrite reads_target by auto. rewrite Hc. unfold read_labels. cbn [a_shape a_data a_dtype]. rewrite (squeeze_ones y Hy). reflexivity.
Qed.
Lemma one_target_reg pa x y names : reg_checks lab check -> Forall (fun n => n = 1) (a_shape y) -> supported (a_dtype y) = true ->
  val pa x y names = Err ValueError.
Proof.
  intros Hc Hy Ht. rewrite reads_target by auto. rewrite Hc. unfold read_labels. cbn [a_shape a_data a_dtype]. rewrite (squeeze_ones y Hy). reflexivity.
Qed.
Lemma no_prior_any x y names : clf_checks n_classes lab check ->
  (exists e, val None x y names = Err e) /\
  (supported (a_dtype y) = true -> ndim (squeeze y) = 1 -> val None x y names = Err TypeError).
Proof.
  intros Hc. split.
  - unfold validate. destruct (ensure_float64 cy (squeeze y)) as [z|e]; cbn [rbind]; [|eauto].
    rewrite Hc. unfold clf_check_target. destruct (negb _); cbn [rbind]; eauto.
  - intros Ht Hn. rewrite reads_target by auto. rewrite Hc. unfold clf_check_target, read_labels, ndim in *. cbn [a_shape a_data] in *. rewrite Hn. reflexivity.
Qed.
Lemma labels_decide p x y names : clf_checks n_classes lab check -> supported (a_dtype y) = true -> 2 <= n_classes p ->
  (right_target cy lab (n_classes p) y -> val (Some p) x y names = validate cx cy x_name (fun _ => Ok tt) x y names) /\
  (~ right_target cy lab (n_classes p) y -> val (Some p) x y names = Err ValueError).
Proof.
  intros Hc Ht Hk. rewrite !reads_target by auto. rewrite Hc.
  match goal with |- context [clf_check_target n_classes (Some p) ?z] => destruct (clf_target_exact n_classes p z Hk) as [H1 H2]; set (z0 := z) in * end.
  assert (Hr : right_target cy lab (n_classes p) y <-> ndim z0 = 1 /\ forall v, In v (a_data z0) <-> exists c, c < n_classes p /\ v = Some (INR c)).
  { unfold right_target, z0, read_labels, ndim. cbn [a_shape a_data]. rewrite map_map. reflexivity. }
  split; intros H.
  - rewrite (proj2 H1 (proj1 Hr H)). reflexivity.
  - rewrite H2; [reflexivity|]. intros Hok. apply H, Hr, H1, Hok.
Qed.
End Targets.

(** The names that [fit] uses cover all columns. *)
Definition names_cover {E NM} (x : xin E NM) (names : option (list NM)) (m : nat) : Prop :=
  match names, x with
  | Some l, _ => m <= length l
  | None, XFrame _ columns => m <= length columns
  | None, _ => True
  end.
Ltac fin_names Hl :=
  match type of Hl with context [ensure_float64 ?u ?v] => destruct (ensure_float64 u v) as [z|]; [|discriminate Hl] end; cbn [rbind] in Hl;
  match type of Hl with (if ?b then _ else _) = _ => destruct b end; [|discriminate Hl]; apply (f_equal (fun r => match r with Ok q => snd q | Err _ => [] end)) in Hl; cbn [snd] in Hl; subst.
Lemma normalize_names {E A NM} (cx : cast E A) (x_name : nat -> NM) x m names : query_matrix x m -> names_cover x names m ->
  exists l, normalize cx x_name x names = Ok (query_arr cx x m, l) /\ m <= length l.
Proof.
  intros Hx Hn. destruct (normalize_query cx x_name x m names Hx) as (l & Hl). exists l. split; auto.
  unfold normalize in Hl. destruct x as [a cs|a|t e|a], names as [nl|]; cbn [names_cover] in Hn; cbn [rbind fst snd] in Hl.
  all: try (fin_names Hl; exact Hn).
  all: cbn [query_matrix] in Hx.
  - destruct Hx as (Ht & Hs). destruct (Nat.eqb (ndim a) 1) eqn:E1.
    + destruct Hs as [Hs|(n & Hs)]; [|unfold ndim in E1; rewrite Hs in E1; discriminate]. cbn [expand_dims a_shape] in Hl. rewrite Hs in Hl. cbn [rbind fst snd] in Hl.
      fin_names Hl; rewrite map_length, seq_length. lia.
    + destruct Hs as [Hs|(n & Hs)]; [unfold ndim in E1; rewrite Hs in E1; discriminate|]. rewrite Hs in Hl. cbn [rbind fst snd] in Hl.
      fin_names Hl; rewrite map_length, seq_length. lia.
  - destruct Hx as (Ht & ->). fin_names Hl; rewrite map_length, seq_length. lia.
  - destruct Hx as (Ht & Hs). destruct (Nat.eqb (ndim a) 1) eqn:E1.
    + destruct Hs as [Hs|(n & Hs)]; [|unfold ndim in E1; rewrite Hs in E1; discriminate]. cbn [expand_dims a_shape] in Hl. rewrite Hs in Hl. cbn [rbind fst snd] in Hl.
      fin_names Hl; rewrite map_length, seq_length. lia.
    + destruct Hs as [Hs|(n & Hs)]; [unfold ndim in E1; rewrite Hs in E1; discriminate|]. rewrite Hs in Hl. cbn [rbind fst snd] in Hl.
      fin_names Hl; rewrite map_length, seq_length. lia.
Qed.

(** A training set of [n > 0] rows and [m > 0] columns that fits a machine and whose names cover the columns. *)
Definition matrix_args {E NM} (a : fit_args E NM) (n m : nat) : Prop :=
  query_matrix (fa_X a) m /\ query_rows (fa_X a) = n /\ len (squeeze (fa_y a)) = n /\ names_cover (fa_X a) (fa_names a) m /\
  0 < n /\ 0 < m /\ (N.of_nat n <= 2 ^ 64)%N.

(** ** Any estimator *)
Section Est.
Context {E A V W C J Q Y P NM : Type}.
Variable lab : Y -> fl.
Variable n_classes : P -> nat.
Lemma pe_one_row (e : perp_est E A V Y P NM) prior s a :
  clf_checks n_classes lab (pe_check e) \/ reg_checks lab (pe_check e) ->
  reachable (pe_fit e) (pe_new prior) s -> Forall (fun n => n = 1) (a_shape (fa_y a)) -> supported (a_dtype (fa_y a)) = true ->
  pe_fit e a s = ([], Some ValueError).
Proof. intros [H|H] Hs Hy Ht; apply (pe_invalid_history e a prior s); auto; [eapply one_target_clf|eapply one_target_reg]; eauto. Qed.
Lemma he_one_row (e : hyper_est E A W C J Q Y P NM) prior s a :
  clf_checks n_classes lab (he_check e) \/ reg_checks lab (he_check e) ->
  reachable (he_fit e) (he_new prior) s -> Forall (fun n => n = 1) (a_shape (fa_y (snd a))) -> supported (a_dtype (fa_y (snd a))) = true ->
  he_fit e a s = ([], Some ValueError).
Proof. intros [H|H] Hs Hy Ht; apply (he_invalid_history e a prior s); auto; [eapply one_target_clf|eapply one_target_reg]; eauto. Qed.
Lemma pe_no_prior (e : perp_est E A V Y P NM) s a : clf_checks n_classes lab (pe_check e) -> reachable (pe_fit e) (pe_new None) s ->
  (exists ex, pe_fit e a s = ([], Some ex)) /\
  (supported (a_dtype (fa_y a)) = true -> ndim (squeeze (fa_y a)) = 1 -> pe_fit e a s = ([], Some TypeError)).
Proof.
  intros H Hs. destruct (no_prior_any (pe_cx e) (pe_cy e) (pe_name e) lab n_classes (pe_check e) (fa_X a) (fa_y a) (fa_names a) H) as ((ex & H1) & H2). split.
  - exists ex. apply (pe_invalid_history e a None s); auto.
  - intros Ht Hn. apply (pe_invalid_history e a None s); auto.
Qed.
Lemma he_no_prior (e : hyper_est E A W C J Q Y P NM) s a : clf_checks n_classes lab (he_check e) -> reachable (he_fit e) (he_new None) s ->
  (exists ex, he_fit e a s = ([], Some ex)) /\
  (supported (a_dtype (fa_y (snd a))) = true -> ndim (squeeze (fa_y (snd a))) = 1 -> he_fit e a s = ([], Some TypeError)).
Proof.
  intros H Hs. destruct (no_prior_any (he_cx e) (he_cy e) (he_name e) lab n_classes (he_check e) (fa_X (snd a)) (fa_y (snd a)) (fa_names (snd a)) H) as ((ex & H1) & H2). split.
  - exists ex. apply (he_invalid_history e a None s); auto.
  - intros Ht Hn. apply (he_invalid_history e a None s); auto.
Qed.
Lemma right_valid (cx : cast E A) (cy : cast E Y) (x_name : nat -> NM) a n m :
  supported (a_dtype (fa_y a)) = true -> matrix_args a n m ->
  exists v, validate cx cy x_name (fun _ => Ok tt) (fa_X a) (fa_y a) (fa_names a) = Ok v /\ len (v_X v) = n /\ cols (v_X v) = m /\ m <= length (v_names v).
Proof.
  intros Ht (Hx & Hr & Hl & Hn & _). rewrite reads_target by auto. cbn [rbind].
  destruct (normalize_names cx x_name (fa_X a) m (fa_names a) Hx Hn) as (l & -> & Hlen). cbn [rbind fst snd].
  unfold query_arr, len at 1. cbn [a_shape hd]. rewrite Hr, Hl, Nat.eqb_refl. eexists. split; [reflexivity|]. cbn. auto.
Qed.
(** A validated training set can be fitted. *)
Lemma pe_valid_fits (e : perp_est E A V Y P NM) prior s a v : permutes (f_argsort (pe_F e)) -> reachable (pe_fit e) (pe_new prior) s ->
  pe_validate e prior a = Ok v -> 0 < len (v_X v) -> (N.of_nat (len (v_X v)) <= 2 ^ 64)%N -> 0 < cols (v_X v) <= length (v_names v) ->
  exists o, outcome_of (pe_fit e a) s = Ok o.
Proof.
  intros Hp Hs H1 Hn H64 Hm. rewrite (pe_refit e prior s a Hs). unfold outcome_of. rewrite (pe_fit_grow e a (pe_new prior) v H1).
  set (m2 := if pe_prune e then _ else _). fold (outcome_of (pe_grow e v;; m2) (pe_new prior)).
  rewrite outcome_then, pe_grow_outcome. change (at_level _) with 0. change (at_prior _) with prior.
  destruct (root_indices_wf' (pe_F e) (entry (pe_x0 e) (v_X v)) (len (v_X v)) (cols (v_X v)) Hp H64) as [Hwf Hlen]; [lia|].
  destruct (pfit_complete (pe_F e) (pe_L e) (entry (pe_x0 e) (v_X v)) (target (pe_y0 e) v) (v_names v) (Datatypes.S (len (v_X v))) 0 prior _ _ Hwf) as (t0 & Et & _).
  - lia.
  - rewrite seq_length. lia.
  - unfold pe_tree, pfit_root. rewrite Et. cbn [rbind]. unfold m2. destruct (pe_prune e); [|eexists; reflexivity].
    unfold perp_obj. rewrite (prune_obj_of _ _ _ perp_law), prune_correct. eexists. reflexivity.
Qed.
(** Perpendicular classification trees: [fit] succeeds iff the label set is right. *)
Lemma pe_labels (e : perp_est E A V Y P NM) p s a n m : clf_checks n_classes lab (pe_check e) -> permutes (f_argsort (pe_F e)) ->
  reachable (pe_fit e) (pe_new (Some p)) s -> 2 <= n_classes p -> supported (a_dtype (fa_y a)) = true -> matrix_args a n m ->
  (right_target (pe_cy e) lab (n_classes p) (fa_y a) -> exists o, outcome_of (pe_fit e a) s = Ok o) /\
  (~ right_target (pe_cy e) lab (n_classes p) (fa_y a) -> pe_fit e a s = ([], Some ValueError)).
Proof.
  intros Hc Hp Hs Hk Ht Ha.
  destruct (labels_decide (pe_cx e) (pe_cy e) (pe_name e) lab n_classes (pe_check e) p (fa_X a) (fa_y a) (fa_names a) Hc Ht Hk) as [H1 H2].
  split; intros H; [|apply (pe_invalid_history e a (Some p) s); auto; apply H2, H].
  specialize (H1 H). destruct (right_valid (pe_cx e) (pe_cy e) (pe_name e) a n m Ht Ha) as (v & Hv & Hln & Hcl & Hnm). rewrite Hv in H1.
  destruct Ha as (_ & _ & _ & _ & Hn0 & Hm0 & H64). apply (pe_valid_fits e (Some p) s a v); auto; rewrite ?Hln, ?Hcl; auto.
Qed.
(** Hyperplane classification trees: a wrong label set is rejected; a right one passes validation. *)
Lemma he_labels (e : hyper_est E A W C J Q Y P NM) p s a n m : clf_checks n_classes lab (he_check e) ->
  reachable (he_fit e) (he_new (Some p)) s -> 2 <= n_classes p -> supported (a_dtype (fa_y (snd a))) = true -> matrix_args (snd a) n m ->
  (right_target (he_cy e) lab (n_classes p) (fa_y (snd a)) -> exists v, he_validate e (Some p) (snd a) = Ok v) /\
  (~ right_target (he_cy e) lab (n_classes p) (fa_y (snd a)) -> he_fit e a s = ([], Some ValueError)).
Proof.
  intros Hc Hs Hk Ht Ha.
  destruct (labels_decide (he_cx e) (he_cy e) (he_name e) lab n_classes (he_check e) p (fa_X (snd a)) (fa_y (snd a)) (fa_names (snd a)) Hc Ht Hk) as [H1 H2].
  split; intros H; [|apply (he_invalid_history e a (Some p) s); auto; apply H2, H].
  destruct (right_valid (he_cx e) (he_cy e) (he_name e) (snd a) n m Ht Ha) as (v & Hv & _). exists v. unfold he_validate. rewrite (H1 H). exact Hv.
Qed.
(** Perpendicular regression trees accept every one-dimensional target, with or without a prior. *)
Lemma pe_reg_accepts (e : perp_est E A V Y P NM) prior s a n m : reg_checks lab (pe_check e) -> permutes (f_argsort (pe_F e)) ->
  reachable (pe_fit e) (pe_new prior) s -> supported (a_dtype (fa_y a)) = true -> ndim (squeeze (fa_y a)) = 1 -> matrix_args a n m ->
  exists o, outcome_of (pe_fit e a) s = Ok o.
Proof.
  intros Hc Hp Hs Ht Hd Ha.
  destruct (right_valid (pe_cx e) (pe_cy e) (pe_name e) a n m Ht Ha) as (v & Hv & Hln & Hcl & Hnm).
  assert (H1 : pe_validate e prior a = Ok v).
  { rewrite <- Hv. unfold pe_validate. rewrite !reads_target by auto. rewrite Hc. unfold reg_check_target, read_labels, ndim in *. cbn [a_shape] in *. rewrite Hd. reflexivity. }
  destruct Ha as (_ & _ & _ & _ & Hn0 & Hm0 & H64). apply (pe_valid_fits e prior s a v); auto; rewrite ?Hln, ?Hcl; auto.
Qed.
End Est.

(** ** The classes *)
Section Classes.
Context {E C : Type}.
Variables cx cy : cast E R.
Variable nm : nat -> string.
Variable srt : (nat -> R) -> nat -> list nat.
Variable pre : C -> list R.
Lemma clf_checks_est h : clf_checks (@length R) (Some : R -> fl) (pe_check (clf_est cx cy nm srt h)).
Proof. intros pa y. reflexivity. Qed.
Lemma hclf_checks_est h : clf_checks (@length R) (Some : R -> fl) (he_check (hclf_est cx cy nm srt pre h)).
Proof. intros pa y. reflexivity. Qed.
Lemma reg_checks_est h : reg_checks (Some : R -> fl) (pe_check (reg_est cx cy nm srt h)).
Proof. intros pa y. reflexivity. Qed.
Lemma hreg_checks_est h : reg_checks (Some : R -> fl) (he_check (hreg_est cx cy nm srt pre h)).
Proof. intros pa y. reflexivity. Qed.
End Classes.
