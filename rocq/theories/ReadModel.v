(** * ReadModel: the printed texts of the four tree classes. *)
From Coq Require Import QArith Qreals Reals Lra.
From Coq Require String Ascii.
From Verif Require Import Prelude Lists Tree Perp RealOps Clf Reg Api Hyper Spec FitProofs PruneProofs PredictProofs OptProofs ApiSpec ApiProofs Str StrSpec StrProofs StrTrees ReadSpec StrWitness ReadProofs NamesProofs
  Exec Witness RegWitness HyperSpec HyperExec HyperWitness InfluenceWitness.
Local Open Scope nat_scope.

Lemma dec_plain n : plain (dec n).
Proof.
  split; [apply dec_one|]. split; apply dec_no; cbn; intros c Hc Ec; subst c; repeat (destruct Hc as [Hc|Hc]; [discriminate Hc|]); exact Hc.
Qed.
Lemma dec_inj n m : dec n = dec m -> n = m.
Proof. intros H. rewrite <- (read_nat_dec n), <- (read_nat_dec m), H. auto. Qed.
Lemma lit_inj s s' : lit s = lit s' -> s = s'.
Proof.
  unfold lit. intros H. rewrite <- (String.string_of_list_ascii_of_string s), <- (String.string_of_list_ascii_of_string s'). f_equal.
  revert H. generalize (String.list_ascii_of_string s), (String.list_ascii_of_string s'). induction l as [|a l IH]; intros [|b l']; cbn; try discriminate; auto.
  intros H. injection H as E H. f_equal; auto. rewrite <- (Ascii.ascii_N_embedding a), <- (Ascii.ascii_N_embedding b), E. auto.
Qed.

Section Four.
Variable num : R -> text.
Variable vec : list R -> text.

Lemma clf_read (t : ctree) :
  (forall d, In d (descs t) -> one_line (lit (sd_name d)) /\ plain (num (sd_val d))) ->
  (forall i, In i (leaves t) -> one_line (vec (clf_posterior_mean (i_post i)))) ->
  read_tree read_perp_split perp_side true (clf_text num vec t) = Some (shows name_text (val_text num) label_text (Some (proba_text vec)) t).
Proof.
  intros H1 H2. apply (read_perp name_text (val_text num) label_text (Some (proba_text vec)) t).
  - intros d Hd. destruct (H1 d Hd) as (A & B & C & _). auto.
  - intros i _. destruct (dec_plain (clf_predict_leaf (i_post i))) as (A & _ & B). auto.
  - intros f i [= <-] Hi. apply H2, Hi.
Qed.
Lemma reg_read (t : rtree) :
  (forall d, In d (descs t) -> one_line (lit (sd_name d)) /\ plain (num (sd_val d))) ->
  (forall i, In i (leaves t) -> plain (num (reg_predict_leaf (i_post i)))) ->
  read_tree read_perp_split perp_side false (reg_text num t) = Some (shows name_text (val_text num) (value_text num) None t).
Proof.
  intros H1 H2. apply (read_perp name_text (val_text num) (value_text num) None t).
  - intros d Hd. destruct (H1 d Hd) as (A & B & C & _). auto.
  - intros i Hi. destruct (H2 i Hi) as (A & _ & B). auto.
  - discriminate.
Qed.
Lemma hclf_read (t : hctree) :
  (forall d, In d (descs t) -> plain (vec (p_origin d)) /\ one_line (vec (p_normal d))) ->
  (forall i, In i (leaves t) -> one_line (vec (clf_posterior_mean (i_post i)))) ->
  read_tree read_hyper_split hyper_side true (hclf_text vec t) = Some (shows (origin_text vec) (normal_text vec) label_text (Some (proba_text vec)) t).
Proof.
  intros H1 H2. apply (read_hyper (origin_text vec) (normal_text vec) label_text (Some (proba_text vec)) t).
  - intros d Hd. destruct (H1 d Hd) as ((A & _ & B) & C). auto.
  - intros i _. destruct (dec_plain (clf_predict_leaf (i_post i))) as (A & _ & B). auto.
  - intros f i [= <-] Hi. apply H2, Hi.
Qed.
Lemma hreg_read (t : hrtree) :
  (forall d, In d (descs t) -> plain (vec (p_origin d)) /\ one_line (vec (p_normal d))) ->
  (forall i, In i (leaves t) -> plain (num (reg_predict_leaf (i_post i)))) ->
  read_tree read_hyper_split hyper_side false (hreg_text num vec t) = Some (shows (origin_text vec) (normal_text vec) (value_text num) None t).
Proof.
  intros H1 H2. apply (read_hyper (origin_text vec) (normal_text vec) (value_text num) None t).
  - intros d Hd. destruct (H1 d Hd) as ((A & _ & B) & C). auto.
  - intros i Hi. destruct (H2 i Hi) as (A & _ & B). auto.
  - discriminate.
Qed.

(** ** Equal texts, equal predictions *)
Lemma shows_lookup {D S P O} (f1 f2 : D -> text) pred (mean : option (P -> text)) (go1 go2 : D -> nat -> bool) (val : ninfo P -> O) r (t t' : tree D S P) :
  (forall d d', In d (descs t) -> In d' (descs t') -> f1 d = f1 d' -> f2 d = f2 d' -> go1 d r = go1 d' r /\ go2 d r = go2 d' r) ->
  (forall i i', In i (leaves t) -> In i' (leaves t') -> pred (i_post i) = pred (i_post i') -> val i = val i') ->
  shows f1 f2 pred mean t = shows f1 f2 pred mean t' -> lookup go1 go2 val t r = lookup go1 go2 val t' r.
Proof.
  revert t'. induction t as [i|i d a b c1 IH1 c2 IH2]; intros [i'|i' d' a' b' c1' c2'] Hd Hl H; try discriminate.
  - cbn [shows] in H. injection H. intros _ _ E. cbn [lookup]. f_equal. apply Hl; cbn; auto.
  - cbn [shows] in H. injection H. intros E2 E1 F2 F1. cbn [lookup].
    destruct (Hd d d' (or_introl eq_refl) (or_introl eq_refl) F1 F2) as [-> ->].
    rewrite (IH1 c1'), (IH2 c2'); auto; intros; try (apply Hd; auto; cbn; right; apply in_app_iff; auto); apply Hl; auto; cbn; apply in_app_iff; auto.
Qed.

Lemma named_descs {V S P} names m (t : tree (pdesc string V) S P) : tree_named names m t -> forall d, In d (descs t) -> nth_error names (sd_dim d) = Some (sd_name d).
Proof.
  induction t as [i|i d a b c1 IH1 c2 IH2]; cbn; [tauto|]. intros (_ & E & H1 & H2) d' [<-|H]; auto. apply in_app_iff in H as [H|H]; auto.
Qed.
Lemma perp_named {A V Y P S} (F : feat A V) (L : lik Y P S) same pr lvl pa d t : perp_fit F L same pr lvl pa d = Ok t ->
  exists m, tree_named (ts_names d) m t.
Proof.
  unfold perp_fit, pfit_root. destruct (pfit _ _ _ _ _ _ _ _ _) as [t0|] eqn:E; [|discriminate]. cbn [rbind]. apply pfit_named in E. intros H. eexists.
  destruct pr; [|injection H as <-; exact E]. rewrite prune_correct in H. injection H as <-. eapply pruned_named; [apply prune_bu_pruned|exact E].
Qed.
Lemma names_unique (names : list string) f g s : NoDup names -> nth_error names f = Some s -> nth_error names g = Some s -> f = g.
Proof. intros H A B. eapply NoDup_nth_error; eauto; [apply nth_error_Some; congruence|congruence]. Qed.

(** Conditions on the pieces of a printed perpendicular tree. *)
Lemma perp_names_ok {V S P} names m (t : tree (pdesc string V) S P) : tree_named names m t -> (forall s, In s names -> one_line (lit s)) ->
  forall d, In d (descs t) -> one_line (lit (sd_name d)).
Proof. intros H Hn d Hd. apply Hn. eapply nth_error_In. eapply named_descs; eauto. Qed.
Lemma same_route {S P} names m m' (t t' : tree (pdesc string R) S P) Xq r : tree_named names m t -> tree_named names m' t' -> NoDup names ->
  tells num (map sd_val (descs t)) (map sd_val (descs t')) ->
  forall d d', In d (descs t) -> In d' (descs t') -> name_text d = name_text d' -> val_text num d = val_text num d' ->
  goes_left Xq d r = goes_left Xq d' r /\ goes_right Xq d r = goes_right Xq d' r.
Proof.
  intros H H' Hn Ht d d' Hd Hd' E1 E2. apply lit_inj in E1.
  assert (sd_val d = sd_val d') as Ev by (apply Ht; auto using in_map).
  pose proof (named_descs _ _ _ H d Hd) as A. pose proof (named_descs _ _ _ H' d' Hd') as B. rewrite E1 in A.
  pose proof (names_unique _ _ _ _ Hn A B) as Ed. unfold goes_left, goes_right. rewrite Ev, Ed. auto.
Qed.

Lemma clf_same_text srt srt' h h' d d' t t' : clf_fit srt h d = Ok t -> clf_fit srt' h' d' = Ok t' ->
  ts_names d = ts_names d' -> NoDup (ts_names d) -> (forall s, In s (ts_names d) -> one_line (lit s)) ->
  (forall s, In s (descs t ++ descs t') -> plain (num (sd_val s))) -> tells num (map sd_val (descs t)) (map sd_val (descs t')) ->
  (forall i, In i (leaves t ++ leaves t') -> one_line (vec (clf_posterior_mean (i_post i)))) ->
  clf_text num vec t = clf_text num vec t' -> forall Xq m, clf_predict t Xq m = clf_predict t' Xq m.
Proof.
  intros F F' En Hnd Hone Hpl Htell Hpr E Xq q. unfold clf_fit in F, F'. apply perp_named in F as [m H], F' as [m' H']. rewrite <- En in H'.
  pose proof (clf_read t) as R1. rewrite E, (clf_read t') in R1.
  2:{ intros s Hs. split; [exact (perp_names_ok _ _ _ H' Hone s Hs)|apply Hpl, in_app_iff; auto]. }
  2:{ intros i Hi. apply Hpr, in_app_iff; auto. }
  assert (Some (shows name_text (val_text num) label_text (Some (proba_text vec)) t') = Some (shows name_text (val_text num) label_text (Some (proba_text vec)) t)) as R2.
  { apply R1; [intros s Hs; split; [exact (perp_names_ok _ _ _ H Hone s Hs)|apply Hpl, in_app_iff; auto]|intros i Hi; apply Hpr, in_app_iff; auto]. }
  injection R2 as R2. unfold clf_predict. rewrite !predict_rows_spec. apply map_ext. intros r.
  rewrite (shows_lookup name_text (val_text num) label_text (Some (proba_text vec)) (goes_left Xq) (goes_right Xq) (fun i => INR (clf_predict_leaf (i_post i))) r t t'); auto.
  - eapply same_route; eauto.
  - intros i i' _ _ Ei. f_equal. apply dec_inj, Ei.
Qed.
Lemma reg_same_text srt srt' h h' d d' t t' : reg_fit srt h d = Ok t -> reg_fit srt' h' d' = Ok t' ->
  ts_names d = ts_names d' -> NoDup (ts_names d) -> (forall s, In s (ts_names d) -> one_line (lit s)) ->
  (forall s, In s (descs t ++ descs t') -> plain (num (sd_val s))) -> tells num (map sd_val (descs t)) (map sd_val (descs t')) ->
  (forall i, In i (leaves t ++ leaves t') -> plain (num (reg_predict_leaf (i_post i)))) ->
  tells num (map (fun i => reg_predict_leaf (i_post i)) (leaves t)) (map (fun i => reg_predict_leaf (i_post i)) (leaves t')) ->
  reg_text num t = reg_text num t' -> forall Xq m, reg_predict t Xq m = reg_predict t' Xq m.
Proof.
  intros F F' En Hnd Hone Hpl Htell Hpr Hleaf E Xq q. unfold reg_fit in F, F'. apply perp_named in F as [m H], F' as [m' H']. rewrite <- En in H'.
  pose proof (reg_read t) as R1. rewrite E, (reg_read t') in R1.
  2:{ intros s Hs. split; [exact (perp_names_ok _ _ _ H' Hone s Hs)|apply Hpl, in_app_iff; auto]. }
  2:{ intros i Hi. apply Hpr, in_app_iff; auto. }
  assert (Some (shows name_text (val_text num) (value_text num) None t') = Some (shows name_text (val_text num) (value_text num) None t)) as R2.
  { apply R1; [intros s Hs; split; [exact (perp_names_ok _ _ _ H Hone s Hs)|apply Hpl, in_app_iff; auto]|intros i Hi; apply Hpr, in_app_iff; auto]. }
  injection R2 as R2. unfold reg_predict. rewrite !predict_rows_spec. apply map_ext. intros r.
  rewrite (shows_lookup name_text (val_text num) (value_text num) None (goes_left Xq) (goes_right Xq) (fun i => reg_predict_leaf (i_post i)) r t t'); auto.
  - eapply same_route; eauto.
  - intros i i' Hi Hi' Ei. apply Hleaf; auto; apply in_map_iff; eauto.
Qed.
Lemma hroute {S P} (t t' : tree (plane (list R) (list R)) S P) Xq r :
  tells vec (map p_origin (descs t)) (map p_origin (descs t')) -> tells vec (map p_normal (descs t)) (map p_normal (descs t')) ->
  forall d d', In d (descs t) -> In d' (descs t') -> origin_text vec d = origin_text vec d' -> normal_text vec d = normal_text vec d' ->
  behind Xq d r = behind Xq d' r /\ before Xq d r = before Xq d' r.
Proof.
  intros Ho Hn d d' Hd Hd' E1 E2. apply Ho in E1; auto using in_map. apply Hn in E2; auto using in_map. unfold behind, before. rewrite E1, E2. auto.
Qed.
Lemma hclf_same_text (t t' : hctree) :
  (forall s, In s (descs t ++ descs t') -> plain (vec (p_origin s)) /\ one_line (vec (p_normal s))) ->
  tells vec (map p_origin (descs t)) (map p_origin (descs t')) -> tells vec (map p_normal (descs t)) (map p_normal (descs t')) ->
  (forall i, In i (leaves t ++ leaves t') -> one_line (vec (clf_posterior_mean (i_post i)))) ->
  hclf_text vec t = hclf_text vec t' -> forall Xq m, hclf_predict t Xq m = hclf_predict t' Xq m.
Proof.
  intros Hpl Ho Hn Hpr E Xq q. pose proof (hclf_read t) as R1. rewrite E, (hclf_read t') in R1.
  2:{ intros s Hs. apply Hpl, in_app_iff; auto. }
  2:{ intros i Hi. apply Hpr, in_app_iff; auto. }
  assert (Some (shows (origin_text vec) (normal_text vec) label_text (Some (proba_text vec)) t') = Some (shows (origin_text vec) (normal_text vec) label_text (Some (proba_text vec)) t)) as R2.
  { apply R1; [intros s Hs; apply Hpl, in_app_iff; auto|intros i Hi; apply Hpr, in_app_iff; auto]. }
  injection R2 as R2. unfold hclf_predict. rewrite !predict_rows_spec. apply map_ext. intros r.
  rewrite (shows_lookup (origin_text vec) (normal_text vec) label_text (Some (proba_text vec)) (behind Xq) (before Xq) (fun i => INR (clf_predict_leaf (i_post i))) r t t'); auto.
  - apply hroute; auto.
  - intros i i' _ _ Ei. f_equal. apply dec_inj, Ei.
Qed.
Lemma hreg_same_text (t t' : hrtree) :
  (forall s, In s (descs t ++ descs t') -> plain (vec (p_origin s)) /\ one_line (vec (p_normal s))) ->
  tells vec (map p_origin (descs t)) (map p_origin (descs t')) -> tells vec (map p_normal (descs t)) (map p_normal (descs t')) ->
  (forall i, In i (leaves t ++ leaves t') -> plain (num (reg_predict_leaf (i_post i)))) ->
  tells num (map (fun i => reg_predict_leaf (i_post i)) (leaves t)) (map (fun i => reg_predict_leaf (i_post i)) (leaves t')) ->
  hreg_text num vec t = hreg_text num vec t' -> forall Xq m, hreg_predict t Xq m = hreg_predict t' Xq m.
Proof.
  intros Hpl Ho Hn Hpr Hleaf E Xq q. pose proof (hreg_read t) as R1. rewrite E, (hreg_read t') in R1.
  2:{ intros s Hs. apply Hpl, in_app_iff; auto. }
  2:{ intros i Hi. apply Hpr, in_app_iff; auto. }
  assert (Some (shows (origin_text vec) (normal_text vec) (value_text num) None t') = Some (shows (origin_text vec) (normal_text vec) (value_text num) None t)) as R2.
  { apply R1; [intros s Hs; apply Hpl, in_app_iff; auto|intros i Hi; apply Hpr, in_app_iff; auto]. }
  injection R2 as R2. unfold hreg_predict. rewrite !predict_rows_spec. apply map_ext. intros r.
  rewrite (shows_lookup (origin_text vec) (normal_text vec) (value_text num) None (behind Xq) (before Xq) (fun i => reg_predict_leaf (i_post i)) r t t'); auto.
  - apply hroute; auto.
  - intros i i' Hi Hi' Ei. apply Hleaf; auto; apply in_map_iff; eauto.
Qed.
End Four.

(** ** Two models with repeated column names that print the same and predict differently *)
Section Strings.
Import String.
Open Scope string_scope.
Definition ex_first : tset Z nat := zset [[0;7];[0;7];[1;7];[1;7]]%Z [0;0;1;1] ["x";"x"].
Definition ex_second : tset Z nat := zset [[7;0];[7;0];[7;1];[7;1]]%Z [0;0;1;1] ["x";"x"].
Definition ex_distinct : tset Z nat := zset [[0;7];[0;7];[1;7];[1;7]]%Z [0;0;1;1] ["x";"z"].
Definition ex_distinct' : tset Z nat := zset [[0;8];[0;8];[1;8];[1;8]]%Z [0;0;1;1] ["x";"z"].
Definition ex_num (_ : R) : text := lit "0.5".
Definition ex_vec (p : list R) : text := lit (if Rltb (nth 1 p 0%R) (nth 0 p 0%R) then "[0.75 0.25]" else "[0.25 0.75]").
End Strings.

Lemma repeated_names : exists srt k prior h d d' t t' Xq,
  clf_setting srt k prior h d /\ clf_setting srt k prior h d' /\ clf_fit srt h d = Ok t /\ clf_fit srt h d' = Ok t' /\ ts_names d = ts_names d' /\
  (forall num vec, clf_text num vec t = clf_text num vec t') /\ clf_predict t Xq 1 = [0%R] /\ clf_predict t' Xq 1 = [1%R].
Proof.
  pose (h := hyp (9 # 10) [1;1]%Z 0 false 0). exists sort_R, 2, (map IZR [1;1]%Z), h, (real_set ex_first), (real_set ex_second).
  destruct (exec_fit (9 # 10) 0 0 false [1;1]%Z ex_first) as [v|e] eqn:E; [|vm_compute in E; discriminate].
  destruct (exec_fit (9 # 10) 0 0 false [1;1]%Z ex_second) as [v'|e] eqn:E'; [|vm_compute in E'; discriminate].
  destruct (exec_run 2 (9 # 10) 0 0 false [1;1]%Z ex_first v) with (srt := sort_R) as (Hs & t & Ht & Hr);
    auto using sort_R_sorts; try lia; [split; reflexivity|].
  destruct (exec_run 2 (9 # 10) 0 0 false [1;1]%Z ex_second v') with (srt := sort_R) as (Hs' & t' & Ht' & Hr');
    auto using sort_R_sorts; try lia; [split; reflexivity|].
  exists t, t', (qX (fun _ j => if j =? 0 then 0%Z else 1%Z)). split; [exact Hs|]. split; [exact Hs'|]. split; [exact Ht|]. split; [exact Ht'|]. split; [reflexivity|].
  rewrite (clf_predict_exec _ _ _ _ Hr), (clf_predict_exec _ _ _ _ Hr').
  vm_compute in E. injection E as <-. vm_compute in E'. injection E' as <-. split; [|split; reflexivity].
  intros num vec. clear - Hr Hr'. destruct t as [|i s a b [i1|] [i2|]]; try discriminate. destruct t' as [|i' s' a' b' [i1'|] [i2'|]]; try discriminate.
  cbn [drop_scores tree_R] in Hr, Hr'. injection Hr. injection Hr'. intros. subst. reflexivity.
Qed.

Section Text.
Import String.
Open Scope string_scope.
(** A fitted tree, its text (with [T], [L], [G] for the special characters) and another model with the same text. *)
Lemma print_case : let h := hyp (9 # 10) [1;1]%Z 0 false 0 in let d := real_set ex_distinct in let d' := real_set ex_distinct' in
  exists t t', clf_setting sort_R 2 (map IZR [1;1]%Z) h d /\ clf_fit sort_R h d = Ok t /\ clf_fit sort_R h d' = Ok t' /\
  ts_names d = ts_names d' /\ NoDup (ts_names d) /\ (forall s, In s (ts_names d) -> one_line (lit s)) /\
  (forall s, In s (descs t ++ descs t') -> plain (ex_num (sd_val s))) /\ tells ex_num (map sd_val (descs t)) (map sd_val (descs t')) /\
  (forall i, In i (leaves t ++ leaves t') -> one_line (ex_vec (clf_posterior_mean (i_post i)))) /\
  clf_text ex_num ex_vec t = clf_text ex_num ex_vec t' /\
  map ascii_art (lines (clf_text ex_num ex_vec t)) = ["x=0.5"; " T <0.5: y=0, n=2, p(y)=[0.75 0.25]"; " L G0.5: y=1, n=2, p(y)=[0.25 0.75]"].
Proof.
  intros h d d'.
  destruct (exec_fit (9 # 10) 0 0 false [1;1]%Z ex_distinct) as [v|e] eqn:E; [|vm_compute in E; discriminate].
  destruct (exec_fit (9 # 10) 0 0 false [1;1]%Z ex_distinct') as [v'|e] eqn:E'; [|vm_compute in E'; discriminate].
  destruct (exec_run 2 (9 # 10) 0 0 false [1;1]%Z ex_distinct v) with (srt := sort_R) as (Hs & t & Ht & Hr);
    auto using sort_R_sorts; try lia; [split; reflexivity|].
  destruct (exec_run 2 (9 # 10) 0 0 false [1;1]%Z ex_distinct' v') with (srt := sort_R) as (Hs' & t' & Ht' & Hr');
    auto using sort_R_sorts; try lia; [split; reflexivity|].
  exists t, t'. split; [exact Hs|]. split; [exact Ht|]. split; [exact Ht'|]. split; [reflexivity|].
  split. { constructor; [intros [H|[]]; discriminate|]. constructor; [intros []|constructor]. }
  split. { intros s [<-|[<-|[]]]; apply no_NL; reflexivity. }
  split. { intros s _. split; [apply no_NL; reflexivity|]. split; intros H; repeat (destruct H as [H|H]; [discriminate H|]); exact H. }
  clear Ht Ht' Hs Hs'. vm_compute in E. injection E as <-. vm_compute in E'. injection E' as <-.
  destruct t as [|i s a b [i1|] [i2|]]; try discriminate. destruct t' as [|i' s' a' b' [i1'|] [i2'|]]; try discriminate.
  cbn [drop_scores tree_R] in Hr, Hr'. injection Hr. injection Hr'. intros. subst. clear Hr Hr'.
  split. { intros x y [<-|[]] [<-|[]] _. reflexivity. }
  split. { intros i _. unfold ex_vec. destruct (Rltb _ _); apply no_NL; reflexivity. }
  split; [reflexivity|].
  assert (T : forall p q : Z, (0 < p)%Z -> (0 < q)%Z -> ex_vec (clf_posterior_mean (map IZR [p;q])) = lit (if (q <? p)%Z then "[0.75 0.25]" else "[0.25 0.75]")).
  { intros p q Hp Hq. unfold ex_vec. f_equal. assert (Rltb (nth 1 (clf_posterior_mean (map IZR [p;q])) 0%R) (nth 0 (clf_posterior_mean (map IZR [p;q])) 0%R) = (q <? p)%Z) as ->; [|reflexivity].
    unfold clf_posterior_mean, vsum. cbn. apply IZR_lt in Hp, Hq.
    assert (P : forall r u : R, (0 < u)%R -> Rltb (IZR q / u) (IZR p / u) = (q <? p)%Z).
    { intros _ u Hu. unfold Rltb. destruct (Rlt_dec _ _) as [L|L]; destruct (Z.ltb_spec q p) as [M|M]; auto; exfalso.
      - apply (Rmult_lt_compat_r u) in L; [|auto]. unfold Rdiv in L. rewrite !Rmult_assoc, Rinv_l, !Rmult_1_r in L by lra. apply lt_IZR in L. lia.
      - apply L. apply Rmult_lt_compat_r; [apply Rinv_0_lt_compat, Hu|]. apply IZR_lt, M. }
    apply (P 0%R). lra. }
  assert (U : clf_predict_leaf (map IZR [3;1]%Z) = 0 /\ clf_predict_leaf (map IZR [1;3]%Z) = 1).
  { unfold clf_predict_leaf. cbn. unfold Rgtb, Rltb. split; [destruct (Rlt_dec 3 1)|destruct (Rlt_dec 1 3)]; cbn; auto; lra. }
  destruct U as [U1 U2].
  unfold clf_text, str_model, str_node, leaf_text, proba_text, label_text. unfold info_R. cbn [i_post i_n_data].
  rewrite (T 3%Z 1%Z), (T 1%Z 3%Z), U1, U2 by reflexivity. reflexivity.
Qed.
End Text.

(** A fitted hyperplane tree with printable pieces. *)
Lemma hyper_print_case : exists t, hclf_fit vecR sort_R (same_cands [[1;0]]%Q) (qhyp (9 # 10) [1;1]%Z 0 false 0) (hsetR hw) = Ok t /\ length (splits t) = 1 /\
  (forall s, In s (descs t ++ descs t) -> plain (ex_vec (p_origin s)) /\ one_line (ex_vec (p_normal s))) /\
  tells ex_vec (map p_origin (descs t)) (map p_origin (descs t)) /\ tells ex_vec (map p_normal (descs t)) (map p_normal (descs t)) /\
  (forall i, In i (leaves t ++ leaves t) -> one_line (ex_vec (clf_posterior_mean (i_post i)))).
Proof.
  destruct hunused_case as (_ & _ & t & v & Ht & Hl & _). exists t. split; [exact Ht|]. split; [exact Hl|].
  assert (P : forall x, plain (ex_vec x)).
  { intros x. unfold ex_vec. destruct (Rltb _ _); (split; [apply no_NL; reflexivity|]); split; intros H; repeat (destruct H as [H|H]; [discriminate H|]); exact H. }
  split; [intros s _; split; apply P|].
  assert (exists s, descs t = [s]) as [s ->].
  { destruct t as [|i s a b c1 c2]; [discriminate|]. cbn in Hl. injection Hl as Hl. rewrite app_length in Hl.
    destruct c1; [|cbn in Hl; lia]. destruct c2; [|cbn in Hl; lia]. exists s. reflexivity. }
  split; [intros a b [<-|[]] [<-|[]] _; reflexivity|]. split; [intros a b [<-|[]] [<-|[]] _; reflexivity|]. intros i _. apply P.
Qed.
(** A regression tree with printable pieces. *)
Lemma reg_print_case : exists t, reg_fit sort_R (half_h false) (two_set (fun i => INR i)) = Ok t /\
  (forall s, In s (ts_names (two_set (fun i => INR i))) -> one_line (lit s)) /\ NoDup (ts_names (two_set (fun i => INR i))) /\
  (forall s, In s (descs t ++ descs t) -> plain (ex_num (sd_val s))).
Proof.
  destruct (reg_fit sort_R (half_h false) (two_set (fun i => INR i))) as [t|e] eqn:E.
  - exists t. split; [reflexivity|]. split. { intros s Hs. cbn in Hs. destruct Hs as [<-|[]]. apply no_NL; reflexivity. }
    split. { constructor; [intros []|constructor]. }
    intros s _. split; [apply no_NL; reflexivity|]. split; intros H; repeat (destruct H as [H|H]; [discriminate H|]); exact H.
  - exfalso. assert (Hs : reg_setting sort_R p1 (half_h false) (two_set (fun i => INR i))); [|destruct (reg_fit_opt _ _ _ _ Hs) as (t & _ & Ht & _); congruence].
    split; [apply sort_R_sorts|]. split; [apply half_h_ok|]. split; [apply two_set_ok|]. split; [reflexivity|]. exact p1_ok.
Qed.
