(** * ModelWitness: concrete histories of classification trees. *)
From Coq Require Import QArith Qreals Reals Lra Lia FunctionalExtensionality.
From Coq Require String.
From Verif Require Import Prelude Tree Perp RealOps Clf Reg Api Spec ClfProofs PruneProofs ApiSpec Exec Witness Object ObjectSpec ObjectProofs ObjectFit
  Validate ValidateProofs Model ModelSpec ModelProofs ModelFit ModelLemmas ModelClasses.
Local Open Scope nat_scope.

(** Arrays of reals are read as they are. *)
Definition id_cast : cast R R := {| as_is := fun r => r; astype := fun r => Ok r; unchanged := fun a b => Reqb a b |}.
Section Strings.
Import String.
Open Scope string_scope.
Definition x_names (i : nat) : string := "x".
End Strings.

(** Training sets given by a row-major list. *)
Definition flat_set (n m : nat) (flat : list Z) (labels : list nat) (names : list string) : tset Z nat :=
  mkSet n m (fun i f => nth (i * m + f) flat 0%Z) (fun i => nth i labels 0) names.
Definition zargs (n m : nat) (flat : list Z) (labels : list nat) (names : list string) : fit_args R string :=
  mkArgs (XArray (mkArr [n; m] F64 (map IZR flat))) (mkArr [n] I64 (map INR labels)) (Some names).
Definition zvalid (n m : nat) (flat : list Z) (labels : list nat) (names : list string) : valid R R string :=
  mkValid (mkArr [n; m] F64 (map IZR flat)) (mkArr [n] I64 (map INR labels)) names.
Definition labels_okb (k n : nat) (labels : list nat) : bool :=
  (2 <=? k) && negb (Nat.eqb n 1) && forallb (fun c => existsb (Nat.eqb c) labels) (seq 0 k) && forallb (fun c => c <? k) labels.
Definition est (h : hyper (list R)) : perp_est R R R R (list R) string := clf_est id_cast id_cast x_names sort_R h.

Lemma zvalid_ok k h p n m flat labels names : length p = k -> labels_okb k n labels = true ->
  pe_validate (est h) (Some p) (zargs n m flat labels names) = Ok (zvalid n m flat labels names).
Proof.
  intros Hp H. unfold labels_okb in H. rewrite !andb_true_iff in H. destruct H as (((Hk & Hn) & H1) & H2).
  apply Nat.leb_le in Hk. rewrite forallb_forall in H1, H2.
  unfold pe_validate, validate, zargs. cbn [fa_y fa_X fa_names]. unfold squeeze. cbn [a_shape filter a_dtype a_data]. rewrite Hn.
  unfold ensure_float64 at 1. cbn [supported a_dtype a_shape a_data]. cbn [rbind pe_check est clf_est pe_cy id_cast as_is]. rewrite map_id.
  match goal with |- context [clf_check_target ?nc ?pa ?z] => assert (E : clf_check_target nc pa z = Ok tt) end.
  { apply clf_target_exact; [lia|]. split; [reflexivity|]. intros v. unfold to_fl. cbn [a_data]. rewrite map_map, in_map_iff. split.
    - intros (c & <- & Hc). exists c. split; auto. rewrite Hp. apply Nat.ltb_lt, H2, Hc.
    - intros (c & Hc & ->). exists c. split; auto. rewrite Hp in Hc. specialize (H1 c). rewrite existsb_exists in H1. destruct H1 as (c' & Hc' & E).
      + apply in_seq. lia.
      + apply Nat.eqb_eq in E. subst; auto. }
  rewrite E. cbn [rbind normalize]. unfold ndim. cbn [a_shape length Nat.eqb rbind fst snd]. unfold ensure_float64. cbn [a_dtype supported a_shape a_data pe_cx est clf_est rbind as_is id_cast length Nat.eqb fst snd].
  rewrite map_id. unfold len. cbn [a_shape hd]. rewrite Nat.eqb_refl. reflexivity.
Qed.
Lemma zvalid_set n m flat labels names : set_of (zvalid n m flat labels names) = real_set (flat_set n m flat labels names).
Proof.
  unfold set_of, real_set, flat_set, zvalid. cbn [v_X v_y v_names len cols a_shape hd nth ts_n ts_dim ts_X ts_y ts_names]. f_equal.
  - extensionality i. extensionality f. unfold entry, cols. cbn [a_shape nth a_data]. apply (map_nth IZR flat 0%Z).
  - extensionality i. unfold target. cbn [v_y a_data]. apply (map_nth INR labels 0).
Qed.

(** Running the shadow gives the fitted object. *)
Theorem model_run k pp prec prn prior n m flat labels names t :
  (0 < pp)%Q /\ (pp < 1)%Q -> (0 <= prec)%Z -> zset_okb k prior (flat_set n m flat labels names) = true -> labels_okb k n labels = true ->
  exec_fit pp 0 prec prn prior (flat_set n m flat labels names) = Ok t ->
  let h := hyp pp prior 0 prn prec in
  exists t', clf_fit sort_R h (real_set (flat_set n m flat labels names)) = Ok t' /\ drop_scores t' = tree_R t /\
    forall s, reachable (pe_fit (est h)) (pe_new (h_prior h)) s ->
      outcome_of (pe_fit (est h) (zargs n m flat labels names)) s = Ok (perp_obj t').
Proof.
  intros Hpp Hprec Hok Hl E h. destruct (exec_run k pp 0 prec prn prior (flat_set n m flat labels names) t Hpp ltac:(lia) Hprec Hok E sort_R sort_R_sorts) as (_ & t' & Ht & Hr).
  exists t'. split; [exact Ht|]. split; [exact Hr|]. intros s Hs.
  unfold est in *. rewrite (clf_objects_complete _ _ _ _ h _ s (zvalid n m flat labels names) Hs).
  - rewrite zvalid_set. unfold h, hyp in *. rewrite Ht. reflexivity.
  - apply (zvalid_ok k h); auto. rewrite map_length. unfold zset_okb in Hok. rewrite !andb_true_iff in Hok.
    destruct Hok as ((((((H1 & H2) & H3) & H4) & H5) & H6) & H7). apply Nat.eqb_eq, H5.
Qed.

Definition zquery (m : nat) (flat : list Z) : xin R string := XArray (mkArr [m] F64 (map IZR flat)).
Lemma zquery_matrix m flat : query_matrix (zquery m flat) m.
Proof. split; [reflexivity|]. left. reflexivity. Qed.
Lemma zquery_entries m flat : query_entries id_cast (zquery m flat) m = qX (fun i f => nth (i * m + f) flat 0%Z).
Proof.
  extensionality i. extensionality f. unfold query_entries, qX, zquery. cbn [query_data a_data id_cast as_is]. rewrite map_id. apply (map_nth IZR flat 0%Z).
Qed.
Lemma zquery_predict h (t : ctree) v m flat : drop_scores t = tree_R v -> i_n_dim (info t) = Some m ->
  pe_query (est h) (fun _ p => INR (clf_predict_leaf p)) 0%R (perp_obj t) (zquery m flat) =
  Ok (map INR (exec_predict v (fun i f => nth (i * m + f) flat 0%Z) 1)).
Proof.
  intros Hd Hn. destruct (perp_answers_of id_cast sort_R (est h) (fun p => INR (clf_predict_leaf p)) t m (h_prec h)) as (_ & Hq & _); auto.
  destruct (Hq (zquery m flat) (zquery_matrix m flat)) as (Hq' & _). rewrite Hq'. f_equal. rewrite zquery_entries.
  rewrite <- (clf_predict_exec t v _ 1 Hd). reflexivity.
Qed.

Section Strings2.
Import String.
Open Scope string_scope.
Definition w_args : fit_args R string := zargs 8 1 [0;0;0;0;1;1;1;1]%Z [0;0;1;1;0;0;0;0] ["x"].
Definition w_flat : list Z := [0;0; 0;1; 1;0; 1;1; 0;0; 0;1; 1;0; 1;1]%Z.
(** The class is the first feature, then the second; in the second training set the second feature has no name. *)
Definition w_args1 : fit_args R string := zargs 8 2 w_flat [0;0;1;1;0;0;1;1] ["a"; "b"].
Definition w_args2 (names : list string) : fit_args R string := zargs 8 2 w_flat [0;1;0;1;0;1;0;1] names.
Definition w_h (prn : bool) : hyper (list R) := hyp (9 # 10) [1;1]%Z 0 prn 0.

Definition w_run (n m : nat) (flat : list Z) (labels : list nat) (names : list string) := exec_fit (9 # 10) 0 0 false [1;1]%Z (flat_set n m flat labels names).
Definition w_tree := Eval vm_compute in w_run 8 1 [0;0;0;0;1;1;1;1]%Z [0;0;1;1;0;0;0;0] ["x"].
Definition w_tree1 := Eval vm_compute in w_run 8 2 w_flat [0;0;1;1;0;0;1;1] ["a"; "b"].
Definition w_tree2 := Eval vm_compute in w_run 8 2 w_flat [0;1;0;1;0;1;0;1] ["a"; "b"].
Lemma w_tree_run : w_run 8 1 [0;0;0;0;1;1;1;1]%Z [0;0;1;1;0;0;0;0] ["x"] = w_tree.
Proof. vm_compute. reflexivity. Qed.
Lemma w_tree1_run : w_run 8 2 w_flat [0;0;1;1;0;0;1;1] ["a"; "b"] = w_tree1.
Proof. vm_compute. reflexivity. Qed.
Lemma w_tree2_run : w_run 8 2 w_flat [0;1;0;1;0;1;0;1] ["a"; "b"] = w_tree2.
Proof. vm_compute. reflexivity. Qed.

(** The tree grown before pruning does not depend on [prune], and not on [names] once it is found. *)
Lemma w_grown (prn : bool) n m flat labels names names' t :
  clf_fit sort_R (w_h false) (real_set (flat_set n m flat labels names)) = Ok t ->
  pe_tree (est (w_h prn)) (zvalid n m flat labels names') names 0 (Some (map IZR [1;1]%Z)) = Ok t.
Proof.
  rewrite <- zvalid_set. unfold clf_fit, perp_fit, pe_tree, w_h, hyp. cbn [h_prune h_pp h_prior h_delta h_prec set_of ts_X ts_y ts_names ts_n ts_dim zvalid v_names].
  intros H. match type of H with rbind ?r _ = _ => destruct r as [u|] eqn:E; [|discriminate H] end. cbn [rbind] in H. rewrite <- H. exact E.
Qed.

(** An interrupt during pruning leaves a model that reports itself fitted but cannot predict. *)
Lemma prune_interrupt : exists h a o x,
  interrupted (pe_fit (est h) a) (pe_new (h_prior h)) o /\ is_fitted o = true /\ query_matrix x 1 /\
  (exists o' r, outcome_of (pe_fit (est h) a) (pe_new (h_prior h)) = Ok o' /\
     pe_query (est h) (fun _ p => INR (clf_predict_leaf p)) 0%R o' x = Ok r) /\
  pe_query (est h) (fun _ p => INR (clf_predict_leaf p)) 0%R o x = Err AttributeError.
Proof.
  pose proof w_tree_run as E. unfold w_tree in E. match type of E with _ = Ok ?u => set (v := u) in E end.
  destruct (model_run 2 (9 # 10) 0 false [1;1]%Z 8 1 [0;0;0;0;1;1;1;1]%Z [0;0;1;1;0;0;0;0] ["x"] v) as (t & Ht & Hd & _); auto; try lia; [split; reflexivity|].
  clear E. unfold v in *. clear v. cbn [tree_R] in Hd.
  destruct t as [|i d v1 v2 [i1|] [i2|]]; try discriminate Hd. cbn [drop_scores] in Hd. injection Hd as Ei Ed E1 E2.
  assert (Hsame : pe_same (est (w_h true)) (i_post i1) (i_post i2) = true).
  { subst i1 i2. unfold info_R. cbn [i_post est clf_est pe_same]. rewrite !zargmax_R. reflexivity. }
  assert (Hi : i_n_dim i = Some 1) by (subst i; reflexivity).
  destruct (pe_prune_interrupted (est (w_h true)) w_args (pe_new (h_prior (w_h true))) (zvalid 8 1 [0;0;0;0;1;1;1;1]%Z [0;0;1;1;0;0;0;0] ["x"]) i d v1 v2 i1 i2) as (H1 & H2); auto.
  { apply (zvalid_ok 2); reflexivity. }
  { apply w_grown. exact Ht. }
  eexists (w_h true), w_args, _, (zquery 1 [0]%Z). split; [exact H1|]. split; [reflexivity|]. split; [apply zquery_matrix|]. split.
  - do 2 eexists. split; [exact H2|].
    apply (zquery_predict (w_h true) (Leaf i) (Leaf {| i_prior := Some [1%Z; 1%Z]; i_level := 0; i_n_data := 8; i_n_dim := Some 1; i_post := [7%Z; 3%Z] |}));
        [subst i; reflexivity|exact Hi].
  - apply (halfway_predict perp_klass perp_stored perp_erased perp_law) with (n := 1); auto; [apply zquery_matrix|].
    exists 0. split; [cbn; lia|]. subst d. unfold pe_left. cbn [est clf_est pe_F feat_R f_lt pe_x0 sd_dim sd_val]. unfold entry. cbn. apply Rltb_true. unfold half_Z. lra.
Qed.

(** A refit that fails because a feature has no name leaves a model that still predicts, but differently. *)
Lemma refit_raises : exists h a1 a2 o1 o2 x r1 r2,
  outcome_of (pe_fit (est h) a1) (pe_new (h_prior h)) = Ok o1 /\
  raised (pe_fit (est h) a2) o1 IndexError o2 /\
  pe_query (est h) (fun _ p => INR (clf_predict_leaf p)) 0%R o1 x = Ok r1 /\
  pe_query (est h) (fun _ p => INR (clf_predict_leaf p)) 0%R o2 x = Ok r2 /\ r1 <> r2.
Proof.
  pose proof w_tree1_run as E1. unfold w_tree1 in E1. match type of E1 with _ = Ok ?u => set (v1 := u) in E1 end.
  pose proof w_tree2_run as E2. unfold w_tree2 in E2. match type of E2 with _ = Ok ?u => set (v2 := u) in E2 end.
  destruct (model_run 2 (9 # 10) 0 false [1;1]%Z 8 2 w_flat [0;0;1;1;0;0;1;1] ["a"; "b"] v1) as (t1 & Ht1 & Hd1 & Hfit1); auto; try lia; [split; reflexivity|].
  destruct (model_run 2 (9 # 10) 0 false [1;1]%Z 8 2 w_flat [0;1;0;1;0;1;0;1] ["a"; "b"] v2) as (t2 & Ht2 & Hd2 & _); auto; try lia; [split; reflexivity|].
  clear E1 E2. unfold v1, v2 in *. clear v1 v2.
  destruct t1 as [|i d u1 u2 [i1|] [i2|]]; try discriminate Hd1.
  pose proof Hd1 as Hd1'. cbn [drop_scores tree_R] in Hd1'. injection Hd1' as Ei Ed Ei1 Ei2.
  destruct t2 as [|j e w1 w2 c1 c2]; try discriminate Hd2.
  pose proof Hd2 as Hd2'. cbn [drop_scores tree_R] in Hd2'. injection Hd2' as _ Ee _ _. clear Hd2.
  set (t1 := Split i d u1 u2 (Leaf i1) (Leaf i2)) in *.
  set (t1' := Split i (mkDesc 1 (sd_name d) (sd_val d)) u1 u2 (Leaf i1) (Leaf i2)).
  assert (Hi : i_n_dim i = Some 2) by (subst i; reflexivity).
  exists (w_h false), w_args1, (w_args2 ["a"]), (perp_obj t1), (perp_obj t1'), (zquery 2 [0;1]%Z). do 2 eexists.
  split; [|split; [|split; [|split]]].
  - apply Hfit1. constructor.
  - replace (perp_obj t1') with (set_split (mkPSplit (Some (Z.of_nat (sd_dim e))) (ps_name (at_split (oattrs (perp_obj t1)))) (ps_val (at_split (oattrs (perp_obj t1))))) (perp_obj t1)) by (subst e; reflexivity).
    apply (pe_short_names (est (w_h false)) (w_args2 ["a"]) (perp_obj t1) (zvalid 8 2 w_flat [0;1;0;1;0;1;0;1] ["a"]) ["a"; "b"] j e w1 w2 c1 c2).
    + change (at_prior (oattrs (perp_obj t1))) with (i_prior i). subst i. apply (zvalid_ok 2); reflexivity.
    + change (at_prior (oattrs (perp_obj t1))) with (i_prior i). change (at_level (oattrs (perp_obj t1))) with (i_level i). subst i. apply w_grown. exact Ht2.
    + subst e. cbn. lia.
  - apply (zquery_predict (w_h false) t1 _ 2 [0;1]%Z Hd1 Hi).
  - apply (zquery_predict (w_h false) t1' (Split {| i_prior := Some [1%Z; 1%Z]; i_level := 0; i_n_data := 8; i_n_dim := Some 2; i_post := [5%Z; 5%Z] |}
       (mkDesc 1 "a" 1%Z) 0%Q 0%Q (Leaf {| i_prior := Some [1%Z; 1%Z]; i_level := 1; i_n_data := 4; i_n_dim := None; i_post := [5%Z; 1%Z] |})
       (Leaf {| i_prior := Some [1%Z; 1%Z]; i_level := 1; i_n_data := 4; i_n_dim := None; i_post := [1%Z; 5%Z] |})) 2 [0;1]%Z); [|exact Hi].
    unfold t1'. cbn [drop_scores tree_R]. subst i i1 i2 d. reflexivity.
  - match goal with |- map INR ?a <> map INR ?b => let x := eval vm_compute in a in let y := eval vm_compute in b in change (map INR x <> map INR y) end.
    cbn. intros H. injection H as H. lra.
Qed.
End Strings2.
