(** * VerboseRows: the printed lines in terms of the training rows; reading a line. *)
From Coq Require Import Reals String Lra.
From Verif Require Import Prelude Lists Tree Perp RealOps Clf Reg Api Hyper Spec FitProofs PruneProofs PredictProofs OptSpec OptProofs OptFit OptNodes ClfSpec RegSpec ClfProofs RegProofs ApiSpec ApiProofs HyperProofs HyperSpec
  Str StrSpec StrProofs ReadSpec ReadProofs ReadModel Verbose VerboseProofs.
Local Open Scope nat_scope.

Lemma visits_ext {D S P} (left right left' right' : D -> nat -> bool) (w w' : list nat -> Prop) s1 s2 :
  (forall d i, left d i = left' d i) -> (forall d i, right d i = right' d i) -> (forall r, w r <-> w' r) ->
  forall (t : tree D S P) lvl side rows out, visits left right w s1 s2 lvl side rows t out -> visits left' right' w' s1 s2 lvl side rows t out.
Proof.
  intros Hl Hr Hw. induction t as [i|i d a b c1 IH1 c2 IH2]; intros lvl side rows out; cbn [visits]; [auto|].
  intros (l1 & l2 & E & H1 & H2). exists l1, l2. split; [exact E|].
  rewrite <- (filter_ext _ _ (Hl d)), <- (filter_ext _ _ (Hr d)).
  rewrite <- !Hw. intuition.
Qed.
Lemma several_many {Y} (y : nat -> Y) rows : several y rows <-> many (map y rows).
Proof.
  split.
  - intros (i & j & Hi & Hj & Hne). exists (y i), (y j). repeat split; auto; apply in_map; auto.
  - intros (a & b & Ha & Hb & Hne). apply in_map_iff in Ha as (i & <- & Hi). apply in_map_iff in Hb as (j & <- & Hj). exists i, j. auto.
Qed.
Lemma many_two {Y} (ys : list Y) : many ys -> 1 < List.length ys.
Proof.
  intros (a & b & Ha & Hb & Hne). destruct ys as [|c [|c' ys]]; cbn in *; [tauto| |lia]. exfalso. destruct Ha as [<-|[]], Hb as [<-|[]]. auto.
Qed.

Section OptRows.
Context {A V Y P S NM : Type}.
Variables leb gap : A -> A -> bool.
Variable mid : A -> A -> V.
Variable F : feat A V.
Variable T : tgt Y P S.
Variable X : nat -> nat -> A.
Variable y : nat -> Y.
Variable names : list NM.
Variable n_dim : nat.
Hypothesis HF : feat_law F leb gap mid.
Hypothesis HR : route_law F leb gap mid.
Notation opt := (opt leb gap mid T X y names n_dim).
Notation opt_child := (opt_child leb gap mid T X y names n_dim).
Notation worth := (fun rows => 1 < List.length rows /\ t_many T (map y rows)).
Lemma opt_visits :
  (forall lvl pa rows t, opt lvl pa rows t -> forall side,
     visits (pgo1 F X) (pgo2 F X) worth "LHS"%string "RHS"%string lvl side rows t (trained "LHS"%string "RHS"%string side t)) /\
  (forall lvl p rows t, opt_child lvl p rows t -> forall side,
     worth rows /\ visits (pgo1 F X) (pgo2 F X) worth "LHS"%string "RHS"%string (lvl + 1) side rows t (trained "LHS"%string "RHS"%string side t) \/
     ~ worth rows /\ trained "LHS"%string "RHS"%string side t = []).
Proof.
  apply opt_mutind.
  - intros lvl pa rows prior Hp Hno side. reflexivity.
  - intros lvl pa rows prior d a b s nm c1 c2 Hp Hc Hgt Hmax Hnm H1 IH1 H2 IH2 side.
    destruct Hc as (_ & Hcut & _). destruct (cut_routes_rows leb gap mid F X HF HR d nm rows a b Hcut) as [E1 E2].
    cbn [visits]. exists (trained "LHS"%string "RHS"%string "LHS"%string c1), (trained "LHS"%string "RHS"%string "RHS"%string c2).
    split; [reflexivity|]. cbv zeta. rewrite E1, E2. auto.
  - intros lvl p rows t Hl Hm Ho IH side. left. auto.
  - intros lvl p rows Hor side. right. split; [|reflexivity]. intros [H1 H2]. destruct Hor; [lia|auto].
Qed.
End OptRows.

Lemma clf_v_lines srt k prior h d t : clf_setting srt k prior h d -> h_prune h = false -> clf_fit srt h d = Ok t ->
  exists out, visits (goes_left (ts_X d)) (goes_right (ts_X d)) (several (ts_y d)) "LHS"%string "RHS"%string 0 "root"%string (all_rows d) t out /\
  fst (clf_fit_v srt h true d) = map line_text out.
Proof.
  intros H Hp E. exists (trained "LHS"%string "RHS"%string "root"%string t).
  split; [|unfold clf_fit_v; unfold clf_fit in E; rewrite Hp in E; apply perp_v_lines; exact E].
  destruct (clf_fit_opt srt k prior h d H) as (t' & t0 & E' & Ho & Ht & _). rewrite E in E'. injection E' as <-. rewrite Hp in Ht. subst t.
  destruct H as (Hs & (_ & _ & Hprec) & _).
  eapply visits_ext; [reflexivity|reflexivity|intros r; symmetry; apply several_many|].
  eapply visits_ext; [| | |apply (proj1 (opt_visits Rleb (gap_R (h_prec h)) mid_R (feat_R (h_prec h) srt) (clf_tgt (h_pp h) (h_delta h)) (ts_X d) (ts_y d) (ts_names d) (ts_dim d)
             (feat_R_law _ srt Hprec Hs) (feat_R_route _ srt Hprec)) _ _ _ _ Ho)]; try reflexivity.
  intros r. cbn [t_many clf_tgt]. split; [tauto|]. intros Hm. split; [|exact Hm]. rewrite <- (map_length (ts_y d)). apply many_two, Hm.
Qed.
Lemma reg_v_lines srt prior h d t : reg_setting srt prior h d -> h_prune h = false -> reg_fit srt h d = Ok t ->
  exists out, visits (goes_left (ts_X d)) (goes_right (ts_X d)) (several (ts_y d)) "LHS"%string "RHS"%string 0 "root"%string (all_rows d) t out /\
  fst (reg_fit_v srt h true d) = map line_text out.
Proof.
  intros H Hp E. exists (trained "LHS"%string "RHS"%string "root"%string t).
  split; [|unfold reg_fit_v; unfold reg_fit in E; rewrite Hp in E; apply perp_v_lines; exact E].
  destruct (reg_fit_opt srt prior h d H) as (t' & t0 & E' & Ho & Ht & _). rewrite E in E'. injection E' as <-. rewrite Hp in Ht. subst t.
  destruct H as (Hs & (_ & _ & Hprec) & _).
  eapply visits_ext; [reflexivity|reflexivity|intros r; symmetry; apply several_many|].
  eapply visits_ext; [| | |apply (proj1 (opt_visits Rleb (gap_R (h_prec h)) mid_R (feat_R (h_prec h) srt) (reg_tgt (h_pp h) (h_delta h)) (ts_X d) (ts_y d) (ts_names d) (ts_dim d)
             (feat_R_law _ srt Hprec Hs) (feat_R_route _ srt Hprec)) _ _ _ _ Ho)]; try reflexivity.
  intros r. cbn [t_many reg_tgt]. split; [tauto|]. intros Hm. split; [|exact Hm]. rewrite <- (map_length (ts_y d)). apply many_two, Hm.
Qed.

Lemma lworth_several {P S} (L : lik R P S) (y : nat -> R) : l_many L = many_R -> forall rows, lworth L y rows <-> several y rows.
Proof.
  intros HL rows. unfold lworth. rewrite HL, several_many, many_R_many. split; [tauto|]. intros Hm. split; [|exact Hm]. rewrite <- (map_length y). apply many_two, Hm.
Qed.
Lemma hclf_v_lines {C} (pre : C -> list R) srt cands h d t : h_prune h = false -> hclf_fit pre srt cands h d = Ok t ->
  exists out, visits (behind (hs_X d)) (before (hs_X d)) (several (hs_y d)) "back "%string "front"%string 0 "root"%string (seq 0 (hs_n d)) t out /\
  fst (hclf_fit_v pre srt cands h true d) = map line_text out.
Proof.
  intros Hp E. unfold hclf_fit in E. rewrite Hp in E. destruct (hyper_v_lines _ _ _ _ (h_prune h) _ _ _ _ _ E) as (out & V & O). exists out. split; [|exact O].
  eapply visits_ext; [| | |exact V]; try reflexivity. apply lworth_several. reflexivity.
Qed.
Lemma hreg_v_lines {C} (pre : C -> list R) srt cands h d t : h_prune h = false -> hreg_fit pre srt cands h d = Ok t ->
  exists out, visits (behind (hs_X d)) (before (hs_X d)) (several (hs_y d)) "back "%string "front"%string 0 "root"%string (seq 0 (hs_n d)) t out /\
  fst (hreg_fit_v pre srt cands h true d) = map line_text out.
Proof.
  intros Hp E. unfold hreg_fit in E. rewrite Hp in E. destruct (hyper_v_lines _ _ _ _ (h_prune h) _ _ _ _ _ E) as (out & V & O). exists out. split; [|exact O].
  eapply visits_ext; [| | |exact V]; try reflexivity. apply lworth_several. reflexivity.
Qed.

(** What is printed does not depend on [prune]. *)
Definition unpruned {P} (h : hyper P) : hyper P := mkHyper (h_pp h) (h_prior h) (h_delta h) false (h_prec h).
Lemma clf_v_trained srt h d t : clf_fit srt (unpruned h) d = Ok t ->
  fst (clf_fit_v srt h true d) = map line_text (trained "LHS"%string "RHS"%string "root"%string t).
Proof. intros E. unfold clf_fit_v. unfold clf_fit, unpruned in E. cbn [h_pp h_prior h_delta h_prune h_prec] in E. apply perp_v_lines. exact E. Qed.
Lemma hclf_v_trained {C} (pre : C -> list R) srt cands h d t : hclf_fit pre srt cands (unpruned h) d = Ok t ->
  fst (hclf_fit_v pre srt cands h true d) = map line_text (trained "back "%string "front"%string "root"%string t).
Proof. intros E. unfold hclf_fit_v. unfold hclf_fit, unpruned in E. cbn [h_pp h_prior h_delta h_prune h_prec] in E. apply hyper_v_trained. exact E. Qed.

(** ** Reading a line *)
Definition side_names : list string := ["root"; "LHS"; "RHS"; "back "; "front"]%string.
Lemma dec_no_sp n : ~ In SP (dec n).
Proof. apply dec_no. cbn. intros c Hc Ec. subst c. repeat (destruct Hc as [Hc|Hc]; [discriminate Hc|]). exact Hc. Qed.
Lemma cut_inj a b c d : ~ In SP a -> ~ In SP b -> a ++ SP :: c = b ++ SP :: d -> a = b /\ c = d.
Proof. intros Ha Hb E. pose proof (cut_app SP a c Ha) as Ea. rewrite E, (cut_app SP b d Hb) in Ea. injection Ea as <- <-. auto. Qed.
Lemma pad10_inj n m : pad10 (dec n) = pad10 (dec m) -> n = m.
Proof.
  intros E. apply dec_inj. assert (F : forall k, filter (fun c => negb (N.eqb c SP)) (pad10 (dec k)) = dec k).
  { intros k. unfold pad10. rewrite filter_app.
    replace (filter (fun c => negb (N.eqb c SP)) (repeat SP (10 - List.length (dec k)))) with (@nil N)
      by (induction (10 - List.length (dec k)); cbn [repeat filter]; auto).
    cbn [app]. assert (Hn := dec_no_sp k). induction (dec k) as [|c l IH]; [reflexivity|]. cbn [filter]. destruct (N.eqb_spec c SP) as [->|]; [exfalso; apply Hn; left; auto|].
    cbn [negb]. f_equal. apply IH. intros Hi. apply Hn. right. auto. }
  rewrite <- (F n), <- (F m), E. reflexivity.
Qed.
Lemma line_inj lvl side n lvl' side' n' : In side side_names -> In side' side_names ->
  train_line lvl side n = train_line lvl' side' n' -> lvl = lvl' /\ side = side' /\ n = n'.
Proof.
  intros Hs Hs' E. unfold train_line in E. apply app_inv_head in E. rewrite <- !app_assoc in E. apply app_inv_head in E.
  change (lit " "%string) with [SP] in E. cbn [app] in E. apply cut_inj in E as [El E]; try apply dec_no_sp. split; [apply dec_inj, El|].
  assert (side = side') as <-.
  { unfold side_names in *. cbn [In] in Hs, Hs'. repeat (destruct Hs as [<-|Hs]; [repeat (destruct Hs' as [<-|Hs']; [first [reflexivity|discriminate E]|]); destruct Hs'|]); destruct Hs. }
  split; [reflexivity|]. apply app_inv_head, app_inv_head, app_inv_tail in E. apply pad10_inj, E.
Qed.
