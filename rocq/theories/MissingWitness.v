(** * MissingWitness: concrete fits on NaN and infinite entries. *)
From Coq Require Import QArith Qreals Permutation Sorted Lra.
From Coq Require String.
From Flocq Require Import Core BinarySingleNaN.
From Verif Require Import Prelude Lists Tree Perp RealOps Clf Reg Api Spec PredictProofs FitProofs OptProofs OptFit ClfSpec ClfProofs ApiSpec ApiProofs
  Exec Witness Routing Sim FloatFeat FloatProofs NumApi NumLemmas NumWitness MissingSpec MissingProofs.
Local Open Scope nat_scope.

Section Strings.
Import String.
Open Scope string_scope.
(** Three rows of one column, classes 0, 1 and 1. *)
Definition three_rows {A} (x0 x1 x2 : A) : tset A R :=
  mkSet 3 1 (fun i _ => if Nat.eqb i 0 then x0 else if Nat.eqb i 1 then x1 else x2) (fun i => INR (nth i [0;1;1] 0)) ["x"].
Definition ex_three : tset Z nat := zset [[0];[1];[1]]%Z [0;1;1] ["x"].
End Strings.

Lemma three_y {A} (x0 x1 x2 : A) : ts_y (three_rows x0 x1 x2) = ts_y (real_set ex_three).
Proof. reflexivity. Qed.

Lemma many_pair (x : R) : many_R [x; x] = false.
Proof. unfold many_R. simpl. destruct (Req_EM_T x x); [reflexivity|congruence]. Qed.

(** The fit of three rows in this order with a gap between the first two only. *)
Section Three.
Context {V Y P S NM : Type}.
Variable L : lik Y P S.
Variable y : nat -> Y.
Definition three_result (nm : NM) (lvl : nat) (pa : option P) (v : V) : res (tree (pdesc NM V) S P) :=
  let prior := l_prior L pa 3 1 in
  let no := l_no_split L lvl prior [y 0; y 1; y 2] in
  let sc := l_split L lvl prior 1 [y 0; y 1; y 2] [1] in
  let inf := mkInfo pa lvl 3 (Some 1) (l_post L prior [y 0; y 1; y 2]) in
  match nth_error sc (l_argmax L sc), nth_error [1] (l_argmax L sc) with
  | Some s, Some _ => if l_gt L s no then
      Ok (Split inf (mkDesc 0 nm v) no s
        (Leaf (mkInfo (Some (l_child_prior L prior [y 0])) (lvl + 1) 1 None (l_post L prior [y 0])))
        (Leaf (mkInfo (Some (l_child_prior L prior [y 1; y 2])) (lvl + 1) 2 None (l_post L prior [y 1; y 2]))))
      else Ok (Leaf inf)
  | _, _ => Ok (Leaf inf)
  end.
Lemma three_pfit {A} (F : feat A V) (X : nat -> nat -> A) nm lvl pa :
  f_argsort F (fun i => X i 0) 3 = [0; 1; 2] -> f_gap F (X 0 0) (X 1 0) = true -> f_gap F (X 1 0) (X 2 0) = false ->
  l_many L [y 1; y 2] = false ->
  pfit_root F L X y [nm] lvl pa 3 1 = three_result nm lvl pa (f_mid F (X 0 0) (X 1 0)).
Proof.
  intros Hs G1 G2 Hm. unfold pfit_root, root_indices. cbn [seq map]. rewrite Hs.
  replace (map (store_index 3) [0; 1; 2]) with [0; 1; 2] by (vm_compute; reflexivity).
  generalize 3 at 1. intros fuel. unfold three_result. cbn [pfit length gather map]. unfold scan. cbn [length seq combine fold_left].
  rewrite scan_dim_eq. unfold dim_scores, dim_positions, gather.
  assert (Ep : split_positions (f_gap F) (map (fun i => X i 0) [0; 1; 2]) = [1]).
  { unfold split_positions. cbn. rewrite ?G1, ?G2. reflexivity. }
  rewrite Ep. cbn [map length].
  set (sc := l_split L lvl (l_prior L pa 3 1) 1 [y 0; y 1; y 2] [1]).
  destruct (nth_error sc (l_argmax L sc)) as [s|]; [|reflexivity].
  destruct (l_argmax L sc) as [|[|j]]; cbn [nth_error]; [|reflexivity..].
  cbn [b_score]. destruct (l_gt L s _); [|reflexivity].
  cbn -[l_many pfit]. change (Pos.to_nat 1) with 1. cbn -[l_many pfit].
  rewrite Hm. reflexivity.
Qed.
End Three.

Notation three_L := (clf_lik (h_pp two_h) (h_delta two_h)).
Lemma clf_fit_eq srt (h : hyper (list R)) d :
  clf_fit srt h d = perp_fit (feat_R (h_prec h) srt) (clf_lik (h_pp h) (h_delta h)) clf_same (h_prune h) 0 (h_prior h) d.
Proof. reflexivity. Qed.
(** The exact fit, with a second value equal to the third. *)
Lemma three_exec : exists v, exec_fit (9 # 10) 0 0 false [1;1]%Z ex_three = Ok v /\
  exists i d a b l1 l2, v = Split i d a b (Leaf l1) (Leaf l2) /\ i_post l1 = [2;1]%Z /\ i_post l2 = [1;3]%Z.
Proof. eexists. split; [vm_compute; reflexivity|]. do 6 eexists. repeat split; reflexivity. Qed.
Lemma three_exact : exists i0 d0 a b l1 l2,
  clf_fit (argsort_by Rleb) two_h (real_set ex_three) = Ok (Split i0 d0 a b (Leaf l1) (Leaf l2)) /\
  i_post l1 = map IZR [2;1]%Z /\ i_post l2 = map IZR [1;3]%Z.
Proof.
  destruct three_exec as (v & E & i & d & a & b & l1 & l2 & Ev & P1 & P2).
  destruct (exec_run 2 (9 # 10) 0 0 false [1;1]%Z ex_three v) with (srt := argsort_by Rleb) as (_ & t & Ht & Hr);
    auto using sort_R_sorts; try lia; [split; reflexivity|].
  subst v. clear E. unfold tree_R in Hr.
  destruct t as [|i0 d0 a0 b0 c1 c2]; [discriminate|]. simpl in Hr. injection Hr as Ei0 Ed0 Hc1 Hc2.
  destruct c1 as [m1|]; [|discriminate]. destruct c2 as [m2|]; [|discriminate].
  simpl in Hc1, Hc2. injection Hc1 as El1. injection Hc2 as El2.
  exists i0, d0, a0, b0, m1, m2. split; [exact Ht|]. rewrite El1, El2. unfold info_R. cbn [i_post]. rewrite P1, P2. auto.
Qed.
Lemma three_order : argsort_by Rleb (fun i => ts_X (real_set ex_three) i 0) 3 = [0; 1; 2].
Proof.
  assert (R01 : Rleb 0 1 = true) by (apply Rleb_true; lra).
  assert (R11 : Rleb 1 1 = true) by (apply Rleb_true; lra).
  unfold argsort_by. cbn [seq fold_left insert_by].
  assert (K0 : ts_X (real_set ex_three) 0 0 = 0%R) by reflexivity.
  assert (K1 : ts_X (real_set ex_three) 1 0 = 1%R) by reflexivity.
  assert (K2 : ts_X (real_set ex_three) 2 0 = 1%R) by reflexivity.
  rewrite K0, K1, R01. cbn [insert_by]. rewrite K0, K1, K2, R01, R11. reflexivity.
Qed.
Lemma three_many : l_many three_L [ts_y (real_set ex_three) 1; ts_y (real_set ex_three) 2] = false.
Proof. exact (many_pair 1). Qed.
Lemma three_move {V V' Y P S NM} (L : lik Y P S) y (nm nm' : NM) lvl pa (v : V) i0 d0 a b l1 l2 :
  three_result L y nm lvl pa v = Ok (Split i0 d0 a b (Leaf l1) (Leaf l2)) ->
  i_n_data l1 = 1 /\ i_n_data l2 = 2 /\
  forall v' : V', three_result L y nm' lvl pa v' = Ok (Split i0 (mkDesc 0 nm' v') a b (Leaf l1) (Leaf l2)).
Proof.
  unfold three_result. destruct (nth_error _ _) as [s|]; [|discriminate]. destruct (nth_error [1] _); [|discriminate].
  destruct (l_gt _ _ _); [|discriminate]. intros H. injection H as <- <- <- <- <- <-. repeat split; reflexivity.
Qed.

Lemma three_transfer {A A' V V' Y P S} (F : feat A V) (F' : feat A' V') (L : lik Y P S) same pr lvl pa
    (d : tset A Y) (d' : tset A' Y) nm nm' i0 d0 a b l1 l2 :
  pr = false -> ts_n d = 3 -> ts_dim d = 1 -> ts_names d = [nm] -> ts_n d' = 3 -> ts_dim d' = 1 -> ts_names d' = [nm'] -> ts_y d' = ts_y d ->
  f_argsort F (fun i => ts_X d i 0) 3 = [0; 1; 2] -> f_argsort F' (fun i => ts_X d' i 0) 3 = [0; 1; 2] ->
  f_gap F (ts_X d 0 0) (ts_X d 1 0) = true -> f_gap F (ts_X d 1 0) (ts_X d 2 0) = false ->
  f_gap F' (ts_X d' 0 0) (ts_X d' 1 0) = true -> f_gap F' (ts_X d' 1 0) (ts_X d' 2 0) = false ->
  l_many L [ts_y d 1; ts_y d 2] = false ->
  perp_fit F L same pr lvl pa d = Ok (Split i0 d0 a b (Leaf l1) (Leaf l2)) ->
  i_n_data l1 = 1 /\ i_n_data l2 = 2 /\
  perp_fit F' L same pr lvl pa d' = Ok (Split i0 (mkDesc 0 nm' (f_mid F' (ts_X d' 0 0) (ts_X d' 1 0))) a b (Leaf l1) (Leaf l2)).
Proof.
  intros -> N1 N2 N3 M1 M2 M3 My S1 S2 G1 G2 G3 G4 Hm. unfold perp_fit. rewrite N1, N2, N3, M1, M2, M3, My.
  rewrite !three_pfit by auto. destruct (three_result _ _ nm _ _ _) as [t|] eqn:E; [|discriminate]. cbn [rbind].
  intros H. injection H as ->. destruct (three_move (V' := V') L (ts_y d) nm nm' lvl pa (f_mid F (ts_X d 0 0) (ts_X d 1 0)) i0 d0 a b l1 l2 E) as (H1 & H2 & H3).
  split; auto. split; auto. rewrite H3. reflexivity.
Qed.

(** Rows in the order 0, 1, 2 with a gap between the first two only. *)
Lemma three_rows_fit {A V} (F : feat A V) (x0 x1 x2 : A) :
  f_argsort F (fun i => if Nat.eqb i 0 then x0 else if Nat.eqb i 1 then x1 else x2) 3 = [0; 1; 2] ->
  f_gap F x0 x1 = true -> f_gap F x1 x2 = false ->
  exists i0 nm a b l1 l2,
    perp_fit F three_L clf_same (h_prune two_h) 0 (h_prior two_h) (three_rows x0 x1 x2) =
      Ok (Split i0 (mkDesc 0 nm (f_mid F x0 x1)) a b (Leaf l1) (Leaf l2)) /\
    i_n_data l1 = 1 /\ i_n_data l2 = 2 /\ i_post l1 = map IZR [2;1]%Z /\ i_post l2 = map IZR [1;3]%Z.
Proof.
  intros Hsort G01 G12. destruct three_exact as (i0 & d0 & a & b & l1 & l2 & E & P1 & P2).
  rewrite clf_fit_eq in E.
  assert (Hn : h_prune two_h = false) by reflexivity.
  assert (En : exists nm, ts_names (real_set ex_three) = [nm]) by (eexists; reflexivity). destruct En as [nm En].
  assert (En' : exists nm', ts_names (three_rows x0 x1 x2) = [nm']) by (eexists; reflexivity). destruct En' as [nm' En'].
  assert (G1 : f_gap (feat_R (h_prec two_h) (argsort_by Rleb)) (ts_X (real_set ex_three) 0 0) (ts_X (real_set ex_three) 1 0) = true).
  { simpl. apply Rgtb_true. rewrite Rabs_pos_eq; lra. }
  assert (G2 : f_gap (feat_R (h_prec two_h) (argsort_by Rleb)) (ts_X (real_set ex_three) 1 0) (ts_X (real_set ex_three) 2 0) = false).
  { simpl. apply Rgtb_false. rewrite Rminus_diag_eq, Rabs_R0 by auto. lra. }
  destruct (three_transfer (feat_R (h_prec two_h) (argsort_by Rleb)) F three_L clf_same (h_prune two_h) 0 (h_prior two_h) (real_set ex_three) (three_rows x0 x1 x2)
    nm nm' i0 d0 a b l1 l2 Hn eq_refl eq_refl En eq_refl eq_refl En' (three_y x0 x1 x2) three_order Hsort G1 G2 G01 G12 three_many E) as (H1 & H2 & H3).
  exists i0, nm', a, b, l1, l2. split; [exact H3|]. auto.
Qed.

Lemma sort_three {A} (leb : A -> A -> bool) srt x0 x1 x2 : sorts leb srt -> leb x1 x0 = false -> leb x2 x0 = false -> leb x2 x1 = false ->
  srt (fun i => if Nat.eqb i 0 then x0 else if Nat.eqb i 1 then x1 else x2) 3 = [0; 1; 2].
Proof.
  intros Hs H1 H2 H3. destruct (Hs (fun i => if Nat.eqb i 0 then x0 else if Nat.eqb i 1 then x1 else x2) 3) as [Hp Hst].
  set (l := srt _ 3) in *. clearbody l. pose proof (Permutation_length Hp) as Hl. cbn in Hl.
  destruct l as [|a [|b [|c [|d l]]]]; try discriminate. clear Hl.
  assert (Hin : forall z, In z [a; b; c] -> z < 3) by (intros z Hz; apply (Permutation_in _ Hp) in Hz; apply in_seq in Hz; lia).
  assert (Hn : NoDup [a; b; c]) by (apply (Permutation_NoDup (l := seq 0 3)); [symmetry; auto|apply seq_NoDup]).
  inversion Hn as [|? ? Na Hn']; subst. inversion Hn' as [|? ? Nb _]; subst. simpl in Na, Nb, Hin.
  pose proof (Hin a ltac:(auto)). pose proof (Hin b ltac:(auto)). pose proof (Hin c ltac:(auto)).
  inversion Hst as [|? ? Hst' Hf]; subst. inversion Hst' as [|? ? _ Hf']; subst.
  inversion Hf as [|? ? Hab Hf2]; subst. inversion Hf2 as [|? ? Hac _]; subst. inversion Hf' as [|? ? Hbc _]; subst.
  clear - H H0 H4 Na Nb H1 H2 H3 Hab Hac Hbc.
  destruct a as [|[|[|a]]], b as [|[|[|b]]], c as [|[|[|c]]]; try lia; try reflexivity; exfalso; simpl in *; try congruence; tauto.
Qed.

Lemma map_repeat_const {O} (f : nat -> O) (o : O) m : (forall i, f i = o) -> map f (seq 0 m) = repeat o m.
Proof. intros H. generalize 0. induction m as [|m IH]; intros k; simpl; [reflexivity|]. rewrite H, IH. reflexivity. Qed.

(** A missing entry in the second class. *)
Lemma nan_row_lost srt : sorts fleb srt -> exists t,
  fclf_fit srt f0 two_h (three_rows f1 f2 fnan) = Ok t /\ map (fun l => (i_n_data l, clf_predict_leaf (i_post l))) (leaves t) = [(1, 0); (2, 1)] /\ fclf_predict t (ts_X (three_rows f1 f2 fnan)) 3 = [0; 1; 0]%R /\ nth_error (fclf_predict_proba t (ts_X (three_rows f1 f2 fnan)) 3) 2 = Some None.
Proof.
  intros Hs. destruct (three_rows_fit (feat_f f0 srt) f1 f2 fnan) as (i0 & nm & a & b & l1 & l2 & E & N1 & N2 & P1 & P2);
    [apply (sort_three fleb); auto; vm_compute; reflexivity|vm_compute; reflexivity..|].
  cbn [f_mid feat_f] in E. eexists. split; [exact E|].
  assert (C2 : clf_predict_leaf (map IZR [1;3]%Z) = 1) by (rewrite zargmax_R; reflexivity).
  split; [cbn [leaves app map]; rewrite N1, N2, P1, P2, leaf_class_0, C2; reflexivity|].
  assert (Hr : forall i, i < 3 -> f_left (ts_X (three_rows f1 f2 fnan)) (mkDesc 0 nm (mid_f f1 f2)) i = Nat.eqb i 0 /\
                                f_right (ts_X (three_rows f1 f2 fnan)) (mkDesc 0 nm (mid_f f1 f2)) i = Nat.eqb i 1).
  { intros i Hi. destruct i as [|[|[|i]]]; [split; vm_compute; reflexivity..|lia]. }
  unfold fclf_predict, fclf_predict_proba. rewrite !predict_rows_spec. cbn [seq map lookup nth_error].
  destruct (Hr 0) as [-> ->]; [lia|]. destruct (Hr 1) as [-> ->]; [lia|]. destruct (Hr 2) as [-> ->]; [lia|]. cbn [Nat.eqb].
  rewrite P1, P2, leaf_class_0, C2. split; reflexivity.
Qed.

(** Minus infinity in the first class: the split value is minus infinity, and no row goes left. *)
Definition fmin : float64 := B754_infinity true.
Definition finf : float64 := B754_infinity false.
Lemma neg_inf_misrouted srt : sorts fleb srt -> exists t,
  fclf_fit srt f0 two_h (two_rows fmin f1) = Ok t /\ map (fun l => (i_n_data l, clf_predict_leaf (i_post l))) (leaves t) = [(1, 0); (1, 1)] /\ fclf_predict t (ts_X (two_rows fmin f1)) 2 = [1; 1]%R.
Proof.
  intros Hs. destruct (float_two fmin f1 srt Hs) as (i0 & nm & a & b & l1 & l2 & E & N1 & N2 & P1 & P2);
    [vm_compute; reflexivity..|].
  eexists. split; [exact E|]. split.
  - simpl. rewrite N1, N2, P1, P2, leaf_class_0, leaf_class_1. reflexivity.
  - unfold fclf_predict. rewrite predict_rows_spec.
    assert (Hr : forall i, i < 2 -> f_left (ts_X (two_rows fmin f1)) (mkDesc 0 nm (mid_f fmin f1)) i = false /\
                                  f_right (ts_X (two_rows fmin f1)) (mkDesc 0 nm (mid_f fmin f1)) i = true).
    { intros i Hi. destruct i as [|[|i]]; [split; vm_compute; reflexivity..|lia]. }
    cbn [seq map lookup]. destruct (Hr 0) as [-> ->]; [lia|]. destruct (Hr 1) as [-> ->]; [lia|].
    rewrite P2, leaf_class_1. reflexivity.
Qed.
(** Both infinities: the split value is NaN, and no row at all reaches a leaf. *)
Lemma both_inf_lost srt : sorts fleb srt -> exists t,
  fclf_fit srt f0 two_h (two_rows fmin finf) = Ok t /\ length (leaves t) = 2 /\ forall Xq m, fclf_predict_proba t Xq m = repeat None m /\ fclf_predict t Xq m = repeat 0%R m.
Proof.
  intros Hs. destruct (float_two fmin finf srt Hs) as (i0 & nm & a & b & l1 & l2 & E & N1 & N2 & P1 & P2);
    [vm_compute; reflexivity..|].
  eexists. split; [exact E|]. split; [reflexivity|]. intros Xq m.
  assert (Em : mid_f fmin finf = B754_nan) by (apply B2SF_inj; vm_compute; reflexivity). rewrite Em.
  assert (Hl : forall i, f_left Xq (mkDesc 0 nm B754_nan) i = false /\ f_right Xq (mkDesc 0 nm B754_nan) i = false).
  { intros i. unfold f_left, f_right. cbn [sd_dim sd_val]. destruct (Xq i 0) as [[]|[]| |[]]; split; reflexivity. }
  unfold fclf_predict, fclf_predict_proba. rewrite !predict_rows_spec.
  split; apply map_repeat_const; intros i; cbn [lookup]; destruct (Hl i) as [-> ->]; reflexivity.
Qed.
