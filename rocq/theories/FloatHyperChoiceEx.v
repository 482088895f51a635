(** * FloatHyperChoiceEx: FloatHyperChoice for both kinds of trees, and cases. *)
From Coq Require Import Reals Lra Permutation.
From Flocq Require Import Core BinarySingleNaN.
From Verif Require Import Prelude Lists Tree Perp RealOps Api Hyper Spec
  FloatFeat FloatReg FloatSum FloatNG FloatClf FloatClfSum FloatHyper FloatHyperDot FloatHyperFit FloatHyperEx FloatHyperUnit FloatHyperChoice.
Local Open Scope R_scope.

Section Both.
Context {C : Type}.
Variables (fdot fmv : list float64 -> list float64 -> float64) (fsum : list float64 -> float64).
Variables (flog fgammaln : float64 -> float64) (fbetaln : float64 -> float64 -> float64) (fpow : float64 -> nat -> float64) (f2pi pp delta : float64).
Variable pre : C -> list float64.
Variable prec : float64.
Variable srt : (nat -> float64) -> nat -> list nat.
Variable prn : bool.
Variable lvl : nat.
Lemma clf64_chosen pa cands d t :
  hcl64_fit fdot fmv fsum flog fgammaln fbetaln fpow pp delta pre prec srt prn lvl pa cands d = Ok t ->
  nodes_ok (h64_back fdot fmv (hs_X d)) (h64_front fdot fmv (hs_X d))
    (chosen_node fdot fmv fsum pre prec srt (cl64_lik fsum flog fgammaln fbetaln fpow pp delta) (hs_X d) (hs_y d) (hs_dim d) cands) (seq 0 (hs_n d)) t.
Proof. apply h64_chosen; reflexivity. Qed.
Lemma reg64_chosen pa cands d t :
  hreg64_fit fdot fmv fsum flog fgammaln fpow f2pi pp delta pre prec srt prn lvl pa cands d = Ok t ->
  nodes_ok (h64_back fdot fmv (hs_X d)) (h64_front fdot fmv (hs_X d))
    (chosen_node fdot fmv fsum pre prec srt (freg_lik fsum flog fgammaln fpow f2pi pp delta) (hs_X d) (hs_y d) (hs_dim d) cands) (seq 0 (hs_n d)) t.
Proof. apply h64_chosen; reflexivity. Qed.
Lemma clf64_leaves pa cands d t :
  hcl64_fit fdot fmv fsum flog fgammaln fbetaln fpow pp delta pre prec srt false lvl pa cands d = Ok t ->
  nodes_ok (h64_back fdot fmv (hs_X d)) (h64_front fdot fmv (hs_X d))
    (leaf_reason fdot fmv fsum pre prec srt (cl64_lik fsum flog fgammaln fbetaln fpow pp delta) (hs_X d) (hs_y d) (hs_dim d) cands) (seq 0 (hs_n d)) t.
Proof. apply h64_leaves; reflexivity. Qed.
Lemma reg64_leaves pa cands d t :
  hreg64_fit fdot fmv fsum flog fgammaln fpow f2pi pp delta pre prec srt false lvl pa cands d = Ok t ->
  nodes_ok (h64_back fdot fmv (hs_X d)) (h64_front fdot fmv (hs_X d))
    (leaf_reason fdot fmv fsum pre prec srt (freg_lik fsum flog fgammaln fpow f2pi pp delta) (hs_X d) (hs_y d) (hs_dim d) cands) (seq 0 (hs_n d)) t.
Proof. apply h64_leaves; reflexivity. Qed.
(** Every score of a candidate without NaN scores is at most the score of the chosen plane. *)
Lemma clf64_best X (y : nat -> float64) n_dim prior rows ns cs pl b :
  best_plane fdot fmv fsum pre prec srt (cl64_lik fsum flog fgammaln fbetaln fpow pp delta) X y n_dim lvl prior rows ns cs pl b ->
  forall c, In c cs -> let ss := scores64 fdot fmv pre prec srt (cl64_lik fsum flog fgammaln fbetaln fpow pp delta) X y n_dim lvl prior rows c in
  Forall (fun s => is_nan s = false) ss -> Forall (fun s => Bltb b s = false) ss.
Proof. intros H c Hc ss Hn. apply Forall_forall. intros s Hs. eapply best_all; eauto. intros. apply map_length. Qed.
Lemma reg64_best X (y : nat -> float64) n_dim prior rows ns cs pl b :
  best_plane fdot fmv fsum pre prec srt (freg_lik fsum flog fgammaln fpow f2pi pp delta) X y n_dim lvl prior rows ns cs pl b ->
  forall c, In c cs -> let ss := scores64 fdot fmv pre prec srt (freg_lik fsum flog fgammaln fpow f2pi pp delta) X y n_dim lvl prior rows c in
  Forall (fun s => is_nan s = false) ss -> Forall (fun s => Bltb b s = false) ss.
Proof. intros H c Hc ss Hn. apply Forall_forall. intros s Hs. eapply best_all; eauto. intros. apply map_length. Qed.
End Both.

(** ** Cases *)
Definition case_vec : list float64 := [B754_nan; f_int 3; f_int 4].
Lemma case_direction : direction case_vec = [0; 3; 4] /\ norm2 (direction case_vec) = 5.
Proof.
  destruct (int_ok 3) as [_ E3]; [lia|]. destruct (int_ok 4) as [_ E4]; [lia|].
  assert (E : direction case_vec = [0; 3; 4]).
  { unfold direction. replace (forallb (fun a => is_nan a || Beqb a f_zero) case_vec) with false by (vm_compute; reflexivity). cbn [case_vec map]. rewrite E3, E4. reflexivity. }
  split; [exact E|]. rewrite E. unfold norm2, dot, vsum. cbn [RealOps.map2 fold_right]. replace (0 * 0 + (3 * 3 + (4 * 4 + 0))) with (5 * 5) by ring. apply sqrt_square. lra.
Qed.
Lemma case_normal : INR (length case_vec) <= b2 20 /\ Forall (fun a => is_nan a = true \/ within (b2 400) a) case_vec /\
  exists x, In x (direction case_vec) /\ b2 (-400) <= Rabs x.
Proof.
  assert (B : 100 <= b2 400) by (apply Rle_trans with (b2 7); [change (b2 7) with 128; lra|apply b2_le; lia]).
  split; [change (b2 20) with 1048576; simpl; lra|]. split.
  - unfold case_vec. apply Forall_cons; [left; reflexivity|]. apply Forall_cons; [right; apply int_within; [lia|exact B]|]. apply Forall_cons; [right; apply int_within; [lia|exact B]|apply Forall_nil].
  - exists 3. destruct case_direction as [-> _]. split; [right; left; reflexivity|]. rewrite Rabs_pos_eq by lra. apply Rle_trans with (b2 0); [apply b2_le; lia|change (b2 0) with 1; lra].
Qed.
(** Two rows; a zero vector and a NaN vector as candidates. *)
Definition pair_set : hset (list float64) float64 := mkHSet 2 1 (fun i => [match i with O => f_zero | _ => f_one end]) (fun i => match i with O => f_zero | _ => f_one end).
Definition pair_cands (path : list bool) : list (list float64) := [[B754_nan]; [f_zero]].
Definition pair_fit := hcl64_fit f_dot f_dot (fun l => fold_left f_add l f_zero) (fun x => x) (fun x => x) f_add (fun x _ => x) f_one f_zero
  (fun v => v) f_zero (fun _ n => seq 0 n) false 0 (Some [f_one; f_one]) pair_cands pair_set.
Lemma pair_splits : match pair_fit with Ok (Split _ pl _ _ (Leaf _) (Leaf _)) => forallb (fun a => Beqb a f_one) (p_normal pl) && forallb (fun a => Beqb a f_half) (p_origin pl) | _ => false end = true.
Proof. vm_compute. reflexivity. Qed.
