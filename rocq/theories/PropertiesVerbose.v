(** * C91: fitting with [verbose=True]. *)
From Coq Require Import Reals String.
From Verif Require Import Prelude Tree Perp RealOps Clf Reg Api Hyper Spec ApiSpec HyperSpec Exec Witness RegWitness HyperExec HyperWitness
  Str Verbose VerboseProofs VerboseRows VerboseEx.
Local Open Scope nat_scope.

(** [verbose] changes neither the tree nor the exception of a fit, in any arithmetic. *)
Theorem C91_perp_same {A V Y P S} (F : feat A V) (L : lik Y P S) same prn lvl pa verbose d :
  snd (perp_fit_v F L same prn lvl pa verbose d) = perp_fit F L same prn lvl pa d.
Proof. exact (perp_v_same F L same prn lvl pa verbose d). Qed.
Print Assumptions C91_perp_same.
Theorem C91_hyper_same {W C N O J E Y P S} (G : geo W C N O J E) (L : lik Y P S) post same prn lvl pa cands verbose d :
  snd (hyper_fit_v G L post same prn lvl pa cands verbose d) = hyper_fit G L post same prn lvl pa cands d.
Proof. exact (hyper_v_same G L post same prn lvl pa cands verbose d). Qed.
Print Assumptions C91_hyper_same.
(** Without [verbose] nothing is printed. *)
Theorem C91_perp_silent {A V Y P S} (F : feat A V) (L : lik Y P S) same prn lvl pa d : fst (perp_fit_v F L same prn lvl pa false d) = [].
Proof. exact (perp_v_silent F L same prn lvl pa d). Qed.
Print Assumptions C91_perp_silent.
Theorem C91_hyper_silent {W C N O J E Y P S} (G : geo W C N O J E) (L : lik Y P S) post same prn lvl pa cands d :
  fst (hyper_fit_v G L post same prn lvl pa cands false d) = [].
Proof. exact (hyper_v_silent G L post same prn lvl pa cands d). Qed.
Print Assumptions C91_hyper_silent.

(** The lines name the root and every node with several targets, by level, side and number of rows, each node before its children and
    the rows below the threshold (behind the plane) first. *)
Theorem C91_clf_lines srt k prior h d t : clf_setting srt k prior h d -> h_prune h = false -> clf_fit srt h d = Ok t ->
  exists out, visits (goes_left (ts_X d)) (goes_right (ts_X d)) (several (ts_y d)) "LHS"%string "RHS"%string 0 "root"%string (all_rows d) t out /\
  fst (clf_fit_v srt h true d) = map line_text out.
Proof. exact (clf_v_lines srt k prior h d t). Qed.
Print Assumptions C91_clf_lines.
Theorem C91_reg_lines srt prior h d t : reg_setting srt prior h d -> h_prune h = false -> reg_fit srt h d = Ok t ->
  exists out, visits (goes_left (ts_X d)) (goes_right (ts_X d)) (several (ts_y d)) "LHS"%string "RHS"%string 0 "root"%string (all_rows d) t out /\
  fst (reg_fit_v srt h true d) = map line_text out.
Proof. exact (reg_v_lines srt prior h d t). Qed.
Print Assumptions C91_reg_lines.
Theorem C91_hclf_lines {C} (pre : C -> list R) srt cands h d t : h_prune h = false -> hclf_fit pre srt cands h d = Ok t ->
  exists out, visits (behind (hs_X d)) (before (hs_X d)) (several (hs_y d)) "back "%string "front"%string 0 "root"%string (seq 0 (hs_n d)) t out /\
  fst (hclf_fit_v pre srt cands h true d) = map line_text out.
Proof. exact (hclf_v_lines pre srt cands h d t). Qed.
Print Assumptions C91_hclf_lines.
Theorem C91_hreg_lines {C} (pre : C -> list R) srt cands h d t : h_prune h = false -> hreg_fit pre srt cands h d = Ok t ->
  exists out, visits (behind (hs_X d)) (before (hs_X d)) (several (hs_y d)) "back "%string "front"%string 0 "root"%string (seq 0 (hs_n d)) t out /\
  fst (hreg_fit_v pre srt cands h true d) = map line_text out.
Proof. exact (hreg_v_lines pre srt cands h d t). Qed.
Print Assumptions C91_hreg_lines.

(** In any arithmetic the lines are those of the trained nodes of the unpruned tree, whether or not the tree is pruned afterwards. *)
Theorem C91_perp_trained {A V Y P S} (F : feat A V) (L : lik Y P S) same prn lvl pa d t : perp_fit F L same false lvl pa d = Ok t ->
  fst (perp_fit_v F L same prn lvl pa true d) = map line_text (trained "LHS"%string "RHS"%string "root"%string t).
Proof. exact (perp_v_lines F L same prn lvl pa d t). Qed.
Print Assumptions C91_perp_trained.
Theorem C91_hyper_trained {W C N O J E Y P S} (G : geo W C N O J E) (L : lik Y P S) post same prn lvl pa cands d t :
  hyper_fit G L post same false lvl pa cands d = Ok t ->
  fst (hyper_fit_v G L post same prn lvl pa cands true d) = map line_text (trained "back "%string "front"%string "root"%string t).
Proof. exact (hyper_v_trained G L post same prn lvl pa cands d t). Qed.
Print Assumptions C91_hyper_trained.
(** So every trained node that is left after pruning was announced, in the same order. *)
Theorem C91_perp_kept {A V Y P S} (F : feat A V) (L : lik Y P S) same prn lvl pa d t : perp_fit F L same prn lvl pa d = Ok t ->
  part_of (map line_text (trained "LHS"%string "RHS"%string "root"%string t)) (fst (perp_fit_v F L same prn lvl pa true d)).
Proof. exact (perp_v_kept F L same prn lvl pa d t). Qed.
Print Assumptions C91_perp_kept.
Theorem C91_hyper_kept {W C N O J E Y P S} (G : geo W C N O J E) (L : lik Y P S) post same prn lvl pa cands d t :
  hyper_fit G L post same prn lvl pa cands d = Ok t ->
  part_of (map line_text (trained "back "%string "front"%string "root"%string t)) (fst (hyper_fit_v G L post same prn lvl pa cands true d)).
Proof. exact (hyper_v_kept G L post same prn lvl pa cands d t). Qed.
Print Assumptions C91_hyper_kept.

(** Different announcements give different lines. *)
Theorem C91_line lvl side n lvl' side' n' : In side side_names -> In side' side_names ->
  train_line lvl side n = train_line lvl' side' n' -> lvl = lvl' /\ side = side' /\ n = n'.
Proof. exact (line_inj lvl side n lvl' side' n'). Qed.
Print Assumptions C91_line.

(** Concrete outputs: two lines each; of the three leaves none is trained, as each holds one class. *)
Example C91_example_clf prn : fst (clf_fit_v sort_R (ex1_h prn) true (real_set ex1)) = map lit
  ["Training level 0 root with          9 data points"; "Training level 1 RHS with          6 data points"]%string.
Proof. exact (ex1_prints prn). Qed.
Example C91_example_hclf delta prn : fst (hclf_fit_v vecR sort_R (same_cands hx1_cs) (hx1_h delta prn) true (hsetR hx1)) = map lit
  ["Training level 0 root with          9 data points"; "Training level 1 front with          6 data points"]%string.
Proof. exact (hx1_prints delta prn). Qed.
Example C91_example_settings : clf_setting sort_R 3 (map IZR [1;1;1]%Z) (ex1_h false) (real_set ex1) /\ h_prune (ex1_h false) = false /\
  (exists t, clf_fit sort_R (ex1_h false) (real_set ex1) = Ok t /\ height t = 2) /\
  reg_setting sort_R p1 (half_h false) step_set /\ h_prune (half_h false) = false /\
  (exists t, reg_fit sort_R (half_h false) step_set = Ok t /\ height t = 1) /\
  (exists t, hreg_fit (fun v => v) sort_R (same_cands hreg_cs) (hreg_h 0 false) hreg_set = Ok t /\ 1 <= List.length (splits t)).
Proof.
  destruct (ex1_fit false) as (H1 & t & E & Hh & _). destruct (step_fit false) as (H2 & t' & E' & Hh' & _).
  split; [exact H1|]. split; [reflexivity|]. split; [exists t; auto|]. split; [exact H2|]. split; [reflexivity|]. split; [exists t'; auto|].
  exact (hreg_fit_split 0).
Qed.
