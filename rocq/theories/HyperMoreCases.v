(** * HyperMoreCases: counterexamples and examples for the hyperplane versions of C08, C14-C16, C18, C50, C51, C53, C64 and for C80. *)
From Coq Require Import QArith Qreals Reals Lra.
From Verif Require Import Prelude Tree Perp RealOps Clf Reg Hyper Spec OptSpec OptProofs ClfSpec ClfProofs RegSpec RegProofs Api Importance ApiSpec HyperSpec.
From Verif Require Import Witness RegWitness PropCases HyperExec HyperLemmas HyperWitness HyperMoreSpec Sphere Optim OptimLemmas OptimSpec OptimFit OptimFitProofs OptimWitness NonfiniteSpec OptimShift HyperSim.
Local Open Scope nat_scope.

(** ** C16: three rows of two classes at 0, one row at 1; prior (2, 1) *)
Definition hprune := qset 1 [[0];[0];[0];[1]]%Q [0;1;1;1].
Lemma hprune_changes : exists (cands : list bool -> list (list Q)) pre srt k prior h d t t' Xq,
  hclf_setting srt k prior h d /\
  hclf_fit pre srt cands (mkHyper (h_pp h) (h_prior h) (h_delta h) false (h_prec h)) d = Ok t /\
  hclf_fit pre srt cands (mkHyper (h_pp h) (h_prior h) (h_delta h) true (h_prec h)) d = Ok t' /\
  hclf_predict t Xq 1 = [0%R] /\ hclf_predict t' Xq 1 = [1%R].
Proof.
  destruct (hexec (9 # 10) 0 false [2;1]%Z (same_cands [[1]]%Q) hprune) as [v|e] eqn:E; [|vm_compute in E; discriminate].
  destruct (hexec (9 # 10) 0 true [2;1]%Z (same_cands [[1]]%Q) hprune) as [v'|e] eqn:E'; [|vm_compute in E'; discriminate].
  destruct (hexec_sound 2 (9 # 10) 0 0 false [2;1]%Z (same_cands [[1]]%Q) hprune v) as [Hs Ht]; auto;
    [split; reflexivity|discriminate|apply unitb_ok; reflexivity|].
  destruct (hexec_sound 2 (9 # 10) 0 0 true [2;1]%Z (same_cands [[1]]%Q) hprune v') as [Hs' Ht']; auto;
    [split; reflexivity|discriminate|apply unitb_ok; reflexivity|].
  exists (same_cands [[1]]%Q), vecR, sort_R, 2, (map IZR [2;1]%Z), (qhyp (9 # 10) [2;1]%Z 0 false 0), (hsetR hprune), (htreeR v), (htreeR v'), (fun _ => vecR [0]%Q).
  split; [exact Hs|]. split; [exact Ht|]. split; [exact Ht'|].
  rewrite !(qlookup_R _ (fun _ => [0]%Q)). vm_compute in E. injection E as <-. vm_compute in E'. injection E' as <-.
  split; reflexivity.
Qed.

(** ** C53: with pruning, renaming the classes can change the splits *)
Definition hswap := qset 1 [[0];[0];[0];[0];[1];[1];[1];[1]]%Q [0;0;1;1;0;0;0;0]%nat.
Lemma hsetR_relabel d pi : hmap_target (relabel pi) (hsetR d) = hsetR (hmap_target pi d).
Proof.
  unfold hmap_target, hsetR. simpl. f_equal. apply FunctionalExtensionality.functional_extensionality. intros i.
  unfold relabel. rewrite label_INR. auto.
Qed.
Lemma hrelabel_prune_changes : exists (cands : list bool -> list (list Q)) pre srt k prior h d pi t t',
  hclf_setting srt k prior h d /\ h_prune h = true /\ class_perm k pi /\ permuted k pi prior prior /\
  hclf_fit pre srt cands h d = Ok t /\ hclf_fit pre srt cands h (hmap_target (relabel pi) d) = Ok t' /\
  length (leaves t) = 1 /\ length (leaves t') = 2.
Proof.
  destruct (hexec (9 # 10) 0 true [1;1]%Z (same_cands [[1]]%Q) hswap) as [v|e] eqn:E; [|vm_compute in E; discriminate].
  destruct (hexec (9 # 10) 0 true [1;1]%Z (same_cands [[1]]%Q) (hmap_target swap2 hswap)) as [v'|e] eqn:E'; [|vm_compute in E'; discriminate].
  destruct (hexec_sound 2 (9 # 10) 0 0 true [1;1]%Z (same_cands [[1]]%Q) hswap v) as [Hs Ht]; auto;
    [split; reflexivity|discriminate|apply unitb_ok; reflexivity|].
  destruct (hexec_sound 2 (9 # 10) 0 0 true [1;1]%Z (same_cands [[1]]%Q) (hmap_target swap2 hswap) v') as [Hs' Ht']; auto;
    [split; reflexivity|discriminate|apply unitb_ok; reflexivity|].
  exists (same_cands [[1]]%Q), vecR, sort_R, 2, (map IZR [1;1]%Z), (qhyp (9 # 10) [1;1]%Z 0 true 0), (hsetR hswap), swap2, (htreeR v), (htreeR v').
  split; [exact Hs|]. split; [reflexivity|]. split.
  { unfold class_perm, swap2. split; intros; lia. }
  split.
  { split; [reflexivity|]. split; [reflexivity|]. intros c Hc. destruct c as [|[|c]]; [reflexivity|reflexivity|lia]. }
  split; [exact Ht|]. split; [rewrite hsetR_relabel; exact Ht'|].
  destruct (shape_htreeR v) as [_ ->]. destruct (shape_htreeR v') as [_ ->].
  vm_compute in E. injection E as <-. vm_compute in E'. injection E' as <-. split; reflexivity.
Qed.

(** ** C80: gradient descent does see the scale of the objective *)
Section Descent.
Local Open Scope R_scope.
Definition jump (c : R) (p : list R) : res R := Ok (if Rltb (1 / 2) (nth 0 p 0) then c else 0).
Definition landing (c delta : R) : list R := [Rmin 1 (Rmax 0 (1 / 2 - / 10 ^ 6 * (c / delta)))].
Lemma descend_jump c fuel delta dr ev : 0 < c -> 0 < delta -> delta <= 1 / 2 ->
  descend (jump c) 1 1 (S fuel) delta [(0, [1 / 2])] (mkR dr ev) =
  (Ok ([(0, [1 / 2])], delta / 10), mkR dr (landing c delta :: [1 / 2 + delta] :: ev)).
Proof.
  intros Hc Hd Hd'. unfold descend. cbn [keys map fst sort_keys fold_right insert_key length seq for_each Nat.mul Nat.div Nat.divmod nth].
  cbn [d_get]. replace (Reqb 0 0) with true by (symmetry; apply Reqb_true; auto). cbn [find_gradient seq gradient nth snd].
  replace (Rgtb (1 / 2 + delta) 1) with false by (symmetry; apply Rgtb_false; lra).
  cbn [set_nth]. unfold bind, ret, evaluate. cbn [r_draws r_evals]. unfold jump at 1. cbn [nth].
  replace (Rltb (1 / 2) (1 / 2 + delta)) with true by (symmetry; apply Rltb_true; lra).
  assert (0 < (c - 0) / delta) by (apply Rdiv_lt_0_compat; lra).
  replace (Reqb ((c - 0) / delta) 0) with false by (symmetry; apply Reqb_false; lra).
  cbn [fst snd line_search map2 clip map]. unfold bind, evaluate. cbn [r_draws r_evals].
  replace (c - 0) with c in * by lra.
  change ([Rmin 1 (Rmax 0 (1 / 2 - / 10 ^ 6 * (c / delta)))]) with (landing c delta).
  assert (Hl : nth 0 (landing c delta) 0 <= 1 / 2).
  { unfold landing. cbn [nth]. eapply Rle_trans; [apply Rmin_r|]. apply Rmax_lub; [lra|]. pose proof (Rinv_0_lt_compat (10 ^ 6) ltac:(lra)). nra. }
  unfold jump. replace (Rltb (1 / 2) (nth 0 (landing c delta) 0)) with false by (symmetry; apply Rltb_false; lra).
  replace (Rltb 0 0) with false by (symmetry; apply Rltb_false; lra).
  unfold ret. cbn [fst snd d_set]. replace (Reqb 0 0) with true by (symmetry; apply Reqb_true; auto). reflexivity.
Qed.
Lemma keep_jump best idle s : keep_best 1 best idle [(0, [1 / 2])] s = (Ok ((if improves 0 best then 0 else 1 + idle)%nat, [(0, [1 / 2])]), s).
Proof.
  unfold keep_best. cbn [keys map fst sort_keys fold_right insert_key firstn d_get].
  replace (Reqb 0 0) with true by (symmetry; apply Reqb_true; auto). reflexivity.
Qed.
Lemma jump_run c fuel : 0 < c ->
  gd_solve (fun _ => 1 / 2) (jump c) 1 1 1 (5 + fuel) start_state =
  (Ok tt, mkR 1 [landing c (/ 10 ^ 6 / 10 / 10); [1 / 2 + / 10 ^ 6 / 10 / 10]; landing c (/ 10 ^ 6 / 10); [1 / 2 + / 10 ^ 6 / 10];
                 landing c (/ 10 ^ 6); [1 / 2 + / 10 ^ 6]; [1 / 2]]).
Proof.
  intros Hc. unfold gd_solve.
  assert (Hloop : forall f idle best start dr ev, (idle < 3)%nat -> 0 < start -> start <= 1 / 2 ->
    gd_loop (fun _ => 1 / 2) (jump c) 1 1 1 (S f) (5 + fuel) idle best start [(0, [1 / 2])] (mkR dr ev) =
    gd_loop (fun _ => 1 / 2) (jump c) 1 1 1 f (5 + fuel) (1 + idle) (Some 0) (start / 10) [(0, [1 / 2])] (mkR dr (landing c start :: [1 / 2 + start] :: ev))).
  { intros f idle best start dr ev Hi H0 H1. cbn [gd_loop]. replace (idle <? 3)%nat with true by (symmetry; apply Nat.ltb_lt; lia).
    unfold bind at 1. change (5 + fuel)%nat with (S (4 + fuel)). rewrite descend_jump by auto. cbn [fst snd].
    cbn [keys map fst sort_keys fold_right insert_key nth]. unfold bind at 1. rewrite keep_jump. cbn [improves].
    replace (Rltb 0 0) with false by (symmetry; apply Rltb_false; lra). reflexivity. }
  change (gd_loop (fun _ => 1 / 2) (jump c) 1 1 1 (5 + fuel) (5 + fuel)) with (gd_loop (fun _ => 1 / 2) (jump c) 1 1 1 (S (4 + fuel)) (5 + fuel)).
  cbn [gd_loop Nat.ltb Nat.leb]. unfold bind at 1. unfold scan. cbn [seq for_each]. unfold bind at 1 2 3. unfold uniform. cbn [start_state r_draws r_evals seq map Nat.add].
  unfold evaluate, ret. cbn [r_draws r_evals].
  replace (0 + (1 - 0) * (1 / 2)) with (1 / 2) by lra. unfold jump at 1. cbn [nth].
  replace (Rltb (1 / 2) (1 / 2)) with false by (symmetry; apply Rltb_false; lra). cbn [d_set].
  unfold bind at 1. rewrite keep_jump. cbn [improves fst snd].
  assert (P6 : 0 < / 10 ^ 6) by (apply Rinv_0_lt_compat; lra).
  assert (Q6 : / 10 ^ 6 <= 1 / 2). { apply Rmult_le_reg_l with (10 ^ 6); [lra|]. rewrite Rinv_r by lra. lra. }
  change (4 + fuel)%nat with (S (3 + fuel)). rewrite Hloop by (lia || lra).
  change (3 + fuel)%nat with (S (2 + fuel)). rewrite Hloop by (lia || lra).
  change (2 + fuel)%nat with (S (1 + fuel)). rewrite Hloop by (lia || lra).
  reflexivity.
Qed.
Lemma landing_1 : landing 1 (/ 10 ^ 6) = [0].
Proof. unfold landing. f_equal. replace (1 / 2 - / 10 ^ 6 * (1 / / 10 ^ 6)) with (- (1 / 2)) by (field; lra). rewrite Rmax_left by lra. apply Rmin_right. lra. Qed.
Lemma landing_4 : landing (1 / 4) (/ 10 ^ 6) = [1 / 4].
Proof. unfold landing. f_equal. replace (1 / 2 - / 10 ^ 6 * (1 / 4 / / 10 ^ 6)) with (1 / 4) by (field; lra). rewrite Rmax_right by lra. apply Rmin_right. lra. Qed.
Lemma descent_scale : exists g rnd cube n_init n_keep s s',
  (forall a b, a < b -> g a < g b) /\ (forall k, 0 <= rnd k < 1) /\
  (forall fuel, (5 <= fuel)%nat -> gd_solve rnd cube 1 n_init n_keep fuel start_state = (Ok tt, s)) /\
  (forall fuel, (5 <= fuel)%nat -> gd_solve rnd (fun p => map_res g (cube p)) 1 n_init n_keep fuel start_state = (Ok tt, s')) /\
  nth 4 (r_evals s) [] = [0] /\ nth 4 (r_evals s') [] = [1 / 4].
Proof.
  exists (fun v => v / 4), (fun _ => 1 / 2), (jump 1), 1%nat, 1%nat. do 2 eexists.
  split; [intros; lra|]. split; [intros; lra|]. split; [|split].
  - intros fuel Hf. replace fuel with (5 + (fuel - 5))%nat by lia. apply jump_run. lra.
  - intros fuel Hf. replace fuel with (5 + (fuel - 5))%nat by lia.
    replace (fun p => map_res (fun v => v / 4) (jump 1 p)) with (jump (1 / 4)); [apply jump_run; lra|].
    apply FunctionalExtensionality.functional_extensionality. intros p. unfold jump. cbn [map_res]. destruct (Rltb _ _); f_equal; lra.
  - cbn [r_evals nth]. split; [apply landing_1|apply landing_4].
Qed.
End Descent.

(** ** Examples *)
Lemma hhull_case : (0 <= ng_mu p1 <= 3)%R /\ forall i, i < hs_n hreg_set -> (0 <= hs_y hreg_set i <= 3)%R.
Proof. split; [simpl; lra|]. intros i Hi. simpl in Hi. do 4 (destruct i as [|i]; [simpl; lra|]). lia. Qed.
Lemma hswap_case : hclf_setting sort_R 2 (map IZR [1; 1]%Z) (qhyp (9 # 10) [1; 1]%Z 0 true 0) (hsetR hswap) /\
  (forall c, c < 2 -> nth c (map IZR [1; 1]%Z) 0%R = 1%R) /\
  exists t t', hclf_fit vecR sort_R (same_cands [[1]]%Q) (qhyp (9 # 10) [1; 1]%Z 0 false 0) (hsetR hswap) = Ok t /\
    hclf_fit vecR sort_R (same_cands [[1]]%Q) (qhyp (9 # 10) [1; 1]%Z 0 true 0) (hsetR hswap) = Ok t' /\ length (leaves t) = 2 /\ length (leaves t') = 1.
Proof.
  destruct (hexec (9 # 10) 0 true [1;1]%Z (same_cands [[1]]%Q) hswap) as [v|e] eqn:E; [|vm_compute in E; discriminate].
  destruct (hexec (9 # 10) 0 false [1;1]%Z (same_cands [[1]]%Q) hswap) as [v'|e] eqn:E'; [|vm_compute in E'; discriminate].
  destruct (hexec_sound 2 (9 # 10) 0 0 true [1;1]%Z (same_cands [[1]]%Q) hswap v) as [Hs Ht]; auto;
    [split; reflexivity|discriminate|apply unitb_ok; reflexivity|].
  destruct (hexec_sound 2 (9 # 10) 0 0 false [1;1]%Z (same_cands [[1]]%Q) hswap v') as [Hs' Ht']; auto;
    [split; reflexivity|discriminate|apply unitb_ok; reflexivity|].
  split; [exact Hs|]. split. { intros c Hc. destruct c as [|[|c]]; [reflexivity|reflexivity|lia]. }
  exists (htreeR v'), (htreeR v). split; [exact Ht'|]. split; [exact Ht|].
  destruct (shape_htreeR v) as [_ ->]. destruct (shape_htreeR v') as [_ ->].
  vm_compute in E. injection E as <-. vm_compute in E'. injection E' as <-. split; reflexivity.
Qed.
Lemma hrelabel_case delta prn : target_blind (RandomHyperplane hx1_nrm 3) /\ class_perm 3 (fun c => (c + 1) mod 3) /\
  permuted 3 (fun c => (c + 1) mod 3) (map IZR [1; 1; 1]%Z) (map IZR [1; 1; 1]%Z) /\
  hclf_setting sort_R 3 (map IZR [1; 1; 1]%Z) (hx1_h delta prn) (hsetR hx1) /\
  exists t, (forall fuel, hclf_fit_opt sort_R (RandomHyperplane hx1_nrm 3) fuel (hx1_h delta prn) (hsetR hx1) = Ok t) /\ height t = 2.
Proof.
  split; [exact I|]. split; [apply rotate_case|]. split; [apply rotate_case|]. split; [apply hx1_fit|].
  destruct (hx1_random delta prn) as (_ & _ & t & A & B & _). exists t. auto.
Qed.
Lemma htarget_case delta prn : (0 < 10)%R /\ hreg_setting sort_R p1 (hreg_h delta prn) hreg_set /\ h_prior (hreg_h delta prn) = Some p1 /\
  target_blind (RandomHyperplane (fun _ => 1%R) 1) /\
  exists bound t, forall fuel, bound <= fuel -> hreg_fit_opt sort_R (RandomHyperplane (fun _ => 1%R) 1) fuel (hreg_h delta prn) hreg_set = Ok t.
Proof.
  split; [lra|]. split; [apply hreg_set_ok|]. split; [reflexivity|]. split; [exact I|].
  destruct (reg_opt_fit sort_R (RandomHyperplane (fun _ => 1%R) 1) (hreg_h delta prn) hreg_set) as (bound & t & _ & H & _);
    [apply sort_R_sorts|exact I|apply (hreg_set_ok delta prn)|split; [discriminate|discriminate]|]. exists bound, t. exact H.
Qed.
Lemma jump_case : (forall a b, (a < b)%R -> (exp a < exp b)%R) /\
  gd_solve (fun _ => (1 / 2)%R) (jump 1) 1 1 1 5 start_state = (Ok tt, snd (gd_solve (fun _ => (1 / 2)%R) (jump 1) 1 1 1 5 start_state)) /\
  length (r_evals (snd (gd_solve (fun _ => (1 / 2)%R) (jump 1) 1 1 1 5 start_state))) = 7.
Proof. split; [exact exp_increasing|]. rewrite (jump_run 1 0 Rlt_0_1 : gd_solve _ _ 1 1 1 5 _ = _). split; reflexivity. Qed.
