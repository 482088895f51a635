(** * FloatHyperEx: the statements of FloatHyperFit for both kinds of trees, and cases. *)
From Coq Require Import Reals Lra Permutation String.
From Flocq Require Import Core BinarySingleNaN.
From Verif Require Import Prelude Lists Tree Perp RealOps Api Hyper Spec StructProofs PredictProofs
  FloatFeat FloatReg FloatSum FloatNG FloatClf FloatClfSum FloatHyper FloatHyperDot FloatHyperFit.
Local Open Scope R_scope.

(** What is assumed of the dot products. *)
Definition blas (fdot : list float64 -> list float64 -> float64) : Prop :=
  forall a b, length a = length b -> dot_of (combine a b) (fdot a b).
(** At most 2^20 columns, at least one row, entries of at most 2^900; candidates are any vectors of the right length. *)
Definition h64_setting {C Y} (pre : C -> list float64) (cands : list bool -> list C) (d : hset (list float64) Y) (dim : nat) : Prop :=
  INR dim <= b2 20 /\ (0 < hs_n d)%nat /\ (forall i, (i < hs_n d)%nat -> row64 dim (hs_X d i)) /\
  forall path c, In c (cands path) -> length (pre c) = dim.

Section Both.
Context {C : Type}.
Variables (fdot fmv : list float64 -> list float64 -> float64) (fsum : list float64 -> float64).
Variables (flog fgammaln : float64 -> float64) (fbetaln : float64 -> float64 -> float64) (fpow : float64 -> nat -> float64) (f2pi pp delta : float64).
Variable pre : C -> list float64.
Variable prec : float64.
Variable srt : (nat -> float64) -> nat -> list nat.
Variable dim : nat.
Variable prn : bool.
Variable lvl : nat.

Lemma clf64_structure pa cands d t : blas fdot -> blas fmv -> h64_setting pre cands d dim ->
  hcl64_fit fdot fmv fsum flog fgammaln fbetaln fpow pp delta pre prec srt prn lvl pa cands d = Ok t ->
  i_n_data (info t) = hs_n d /\ counts_ok t /\ levels_ok lvl t /\ get_n_leaves t = length (leaves t) /\
  (1 <= length (leaves t) <= hs_n d)%nat /\ get_depth t = (lvl + height t)%nat /\ (height t < hs_n d)%nat /\
  Forall (fun s => plane64 dim (fst (fst s)) /\ from_data fdot pre cands d (fst (fst s))) (splits t).
Proof. intros Hd Hm (H1 & H2 & H3 & H4). unfold hcl64_fit. eapply h64_structure; eauto. Qed.
Lemma reg64_structure pa cands d t : blas fdot -> blas fmv -> h64_setting pre cands d dim ->
  hreg64_fit fdot fmv fsum flog fgammaln fpow f2pi pp delta pre prec srt prn lvl pa cands d = Ok t ->
  i_n_data (info t) = hs_n d /\ counts_ok t /\ levels_ok lvl t /\ get_n_leaves t = length (leaves t) /\
  (1 <= length (leaves t) <= hs_n d)%nat /\ get_depth t = (lvl + height t)%nat /\ (height t < hs_n d)%nat /\
  Forall (fun s => plane64 dim (fst (fst s)) /\ from_data fdot pre cands d (fst (fst s))) (splits t).
Proof. intros Hd Hm (H1 & H2 & H3 & H4). unfold hreg64_fit. eapply h64_structure; eauto. Qed.

Lemma clf64_queries pa cands d t : blas fdot -> blas fmv -> h64_setting pre cands d dim ->
  hcl64_fit fdot fmv fsum flog fgammaln fbetaln fpow pp delta pre prec srt prn lvl pa cands d = Ok t ->
  forall Xq m q, (q < m)%nat -> row64 dim (Xq q) ->
  exists rs, rs <> [] /\ (forall k, In k rs -> (k < hs_n d)%nat) /\
    nth_error (hcl64_predict fdot fmv t Xq m) q =
      Some (cl64_predict_leaf (cl64_posterior1 (cl64_get_prior pa (hs_n d) (hs_dim d)) (map (hs_y d) rs))) /\
    (forall k, (k < hs_n d)%nat -> Xq q = hs_X d k -> In k rs).
Proof.
  intros Hd Hm (H1 & H2 & H3 & H4) E Xq m q Hq Hx. unfold hcl64_fit in E.
  destruct (h64_queries fdot fmv fsum Hd Hm pre prec srt dim H1 (cl64_lik fsum flog fgammaln fbetaln fpow pp delta) (fun _ => cl64_posterior f_zero) cl64_same cands d H2 H3 H4 (fun i => cl64_predict_leaf (i_post i)) 0%nat prn lvl pa t
    (fun _ _ => eq_refl) (fun _ _ _ => eq_refl) E Xq m q Hq Hx) as (i & rs & K1 & K2 & K3 & _ & K4 & K5).
  exists rs. split; [exact K2|]. split; [exact K3|]. split; [|exact K5]. unfold hcl64_predict. rewrite K1, K4. reflexivity.
Qed.
Lemma reg64_queries pa cands d t : blas fdot -> blas fmv -> h64_setting pre cands d dim ->
  hreg64_fit fdot fmv fsum flog fgammaln fpow f2pi pp delta pre prec srt prn lvl pa cands d = Ok t ->
  forall Xq m q, (q < m)%nat -> row64 dim (Xq q) ->
  exists rs, rs <> [] /\ (forall k, In k rs -> (k < hs_n d)%nat) /\
    nth_error (hreg64_predict fdot fmv t Xq m) q =
      Some (freg_predict_leaf (freg_posterior fsum f_one (freg_get_prior pa (hs_n d) (hs_dim d)) (map (hs_y d) rs))) /\
    (forall k, (k < hs_n d)%nat -> Xq q = hs_X d k -> In k rs).
Proof.
  intros Hd Hm (H1 & H2 & H3 & H4) E Xq m q Hq Hx. unfold hreg64_fit in E.
  destruct (h64_queries fdot fmv fsum Hd Hm pre prec srt dim H1 (freg_lik fsum flog fgammaln fpow f2pi pp delta) (fun _ => freg_posterior fsum f_zero) freg_same cands d H2 H3 H4 (fun i => freg_predict_leaf (i_post i)) f_zero prn lvl pa t
    (fun _ _ => eq_refl) (fun _ _ _ => eq_refl) E Xq m q Hq Hx) as (i & rs & K1 & K2 & K3 & _ & K4 & K5).
  exists rs. split; [exact K2|]. split; [exact K3|]. split; [|exact K5]. unfold hreg64_predict. rewrite K1, K4. reflexivity.
Qed.
Lemma clf64_tiny pa cands d t : blas fdot -> (0 < hs_n d)%nat ->
  (forall i, (i < hs_n d)%nat -> length (hs_X d i) = dim /\ Forall (within (b2 (-539))) (hs_X d i)) ->
  (forall path c, In c (cands path) -> row_difference d (pre c)) ->
  hcl64_fit fdot fmv fsum flog fgammaln fbetaln fpow pp delta pre prec srt prn lvl pa cands d = Ok t ->
  t = Leaf (info t) /\ i_n_data (info t) = hs_n d.
Proof. intros Hd Hn Hr Hc. unfold hcl64_fit. eapply h64_tiny_rows; eauto. Qed.
End Both.
Lemma side64 fdot fmv dim Xq q pl : blas fdot -> blas fmv -> INR dim <= b2 20 -> plane64 dim pl -> row64 dim (Xq q) ->
  let gap := xdot (Xq q) (p_normal pl) - xdot (p_origin pl) (p_normal pl) in
  let bound := dot_bound dim (Xq q) (p_normal pl) + dot_bound dim (p_origin pl) (p_normal pl) in
  (gap < - bound -> h64_back fdot fmv Xq pl q = true /\ h64_front fdot fmv Xq pl q = false) /\
  (bound < gap -> h64_back fdot fmv Xq pl q = false /\ h64_front fdot fmv Xq pl q = true).
Proof. intros Hd Hm H1 Hp Hx. exact (h64_side fdot fmv (fun _ => f_zero) Hd Hm (fun v : list float64 => v) f_zero (fun _ _ => []) dim H1 pl (Xq q) Hp Hx). Qed.

(** ** Cases *)
Lemma dot_left_to_right : blas f_dot.
Proof.
  intros a b _. unfold f_dot. generalize (combine a b). intros l.
  assert (H : forall r acc s, dot_of acc s -> dot_of (acc ++ r) (fold_left (fun s p => f_add s (f_mul (fst p) (snd p))) r s)).
  { induction r as [|[x z] l0 IH]; intros acc s Hs; [rewrite List.app_nil_r; exact Hs|]. cbn [fold_left fst snd].
    replace (acc ++ (x, z) :: l0) with ((acc ++ [(x, z)]) ++ l0) by (rewrite <- app_assoc; reflexivity). apply IH. apply dot_add; [exact Hs|apply dot_one]. }
  apply (H l []). constructor.
Qed.
Definition case_rows : list (list float64) := [[f_zero; f_zero]; [f_one; f_zero]; [f_int 3; f_one]; [f_int 3; f_int 2]].
Definition case_set : hset (list float64) float64 := mkHSet 4 2 (fun i => nth i case_rows []) (fun i => if Nat.ltb i 2 then f_zero else f_one).
Definition case_cands (path : list bool) : list (list float64) := [[B754_nan; f_one]; [B754_infinity true; f_zero]; [f_one; f_one]].
Definition case_plane : plane (list float64) (list float64) := mkPlane [f_one; f_zero] [f_int 2; f_one].
Lemma int_within (z : Z) (M : R) : (Z.abs z < 100)%Z -> 100 <= M -> within M (f_int z).
Proof.
  intros H HM. destruct (int_ok z) as [F E]; [lia|]. split; [exact F|]. rewrite E, <- abs_IZR. apply IZR_lt in H. lra.
Qed.
Lemma big_900 : 100 <= b2 900.
Proof. apply Rle_trans with (b2 7); [change (b2 7) with 128; lra|apply b2_le; lia]. Qed.
Lemma zero_within M : 0 <= M -> within M f_zero.
Proof. intros H. split; [reflexivity|]. change (B2R f_zero) with 0. rewrite Rabs_R0. exact H. Qed.
Lemma one_within M : 1 <= M -> within M f_one.
Proof. intros H. destruct one_ok as [F E]. split; [exact F|]. rewrite E, Rabs_R1. exact H. Qed.
Lemma case_row i : (i < 4)%nat -> row64 2 (hs_X case_set i).
Proof.
  intros Hi. pose proof big_900 as HB. do 4 (destruct i as [|i]; [split; [reflexivity|]; cbn [case_set case_rows hs_X nth]; repeat first [apply Forall_nil | apply Forall_cons];
    (apply zero_within; lra) || (apply one_within; lra) || (apply int_within; [lia|exact HB])|]). lia.
Qed.
Lemma case_setting : h64_setting (fun v => v) case_cands case_set 2.
Proof.
  split; [change (b2 20) with 1048576; simpl; lra|]. split; [cbn [hs_n case_set]; lia|]. split; [exact case_row|].
  intros path c [<-|[<-|[<-|[]]]]; reflexivity.
Qed.
Lemma case_side : plane64 2 case_plane /\ row64 2 (hs_X case_set 0) /\
  xdot (hs_X case_set 0) (p_normal case_plane) - xdot (p_origin case_plane) (p_normal case_plane) <
    - (dot_bound 2 (hs_X case_set 0) (p_normal case_plane) + dot_bound 2 (p_origin case_plane) (p_normal case_plane)).
Proof.
  pose proof big_900 as HB. split; [|split; [apply case_row; lia|]].
  - split; [reflexivity|]. cbn [p_normal p_origin case_plane]. split; [repeat first [apply Forall_nil | apply Forall_cons]; (apply zero_within; lra) || (apply one_within; lra)|].
    split; [reflexivity|]. repeat first [apply Forall_nil | apply Forall_cons]; (apply one_within; lra) || (apply int_within; [lia|exact HB]).
  - destruct (int_ok 2) as [_ E2]; [lia|]. destruct one_ok as [_ E1]. unfold dot_bound, xdot, adot, dot.
    cbn [case_set case_rows case_plane hs_X p_normal p_origin nth map RealOps.map2]. unfold vsum. cbn [fold_right]. rewrite E1, E2. change (B2R f_zero) with 0.
    rewrite !Rabs_R0, Rabs_R1, (Rabs_pos_eq (IZR 2)) by lra. rewrite u53_val. change (INR 2) with (1 + 1).
    assert (b2 (-1074) <= / 1024) by (change (/ 1024) with (b2 (-10)); apply b2_le; lia). pose proof (b2_pos (-1074)). lra.
Qed.
(** 2^-600 and 2^-599. *)
Definition f_tiny (e : positive) (H : SpecFloat.bounded 53 1024 4503599627370496 (Z.neg e) = true) : float64 := B754_finite false 4503599627370496 (Z.neg e) H.
Definition tiny_set : hset (list float64) float64 :=
  mkHSet 2 1 (fun i => match i with O => [f_tiny 652 eq_refl] | _ => [f_tiny 651 eq_refl] end) (fun i => match i with O => f_zero | _ => f_one end).
Lemma tiny_val e H : B2R (f_tiny e H) = b2 (52 + Z.neg e).
Proof. unfold f_tiny, B2R, F2R. cbn [Fnum Fexp cond_Zopp]. rewrite bpow_plus. f_equal. Qed.
Lemma tiny_case : (0 < hs_n tiny_set)%nat /\ (forall i, (i < hs_n tiny_set)%nat -> length (hs_X tiny_set i) = 1%nat /\ Forall (within (b2 (-539))) (hs_X tiny_set i)) /\
  row_difference tiny_set (map2 f_sub (hs_X tiny_set 1) (hs_X tiny_set 0)).
Proof.
  assert (W : forall e H, (591 <= Zpos e)%Z -> within (b2 (-539)) (f_tiny e H)).
  { intros e H He. split; [reflexivity|]. rewrite tiny_val, Rabs_pos_eq by (apply Rlt_le, b2_pos). apply b2_le. lia. }
  split; [cbn [hs_n tiny_set]; lia|]. split.
  - intros i Hi. cbn [hs_n tiny_set] in Hi. destruct i as [|[|i]]; [| |lia]; cbn [hs_X tiny_set]; (split; [reflexivity|]; repeat first [apply Forall_nil | apply Forall_cons]; apply W; lia).
  - exists 0%nat, 1%nat. split; [cbn [hs_n tiny_set]; lia|]. split; [cbn [hs_n tiny_set]; lia|]. split; [left; reflexivity|].
    cbn [hs_X tiny_set map]. rewrite !tiny_val. intros K. injection K as K. assert (L : b2 (52 + -652) < b2 (52 + -651)) by (apply bpow_lt; lia). lra.
Qed.
