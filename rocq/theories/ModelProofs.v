(** * ModelProofs: fits and queries of objects in terms of trees. *)
From Coq Require Import Reals Lia.
From Verif Require Import Prelude Tree Perp RealOps Clf Reg Api Importance PruneProofs Hyper Object ObjectSpec ObjectProofs ObjectFit Validate Model ModelSpec.
Local Open Scope nat_scope.

Section OfTree.
Context {U D S P : Type}.
Variable K : klass U D.
Variable stored : D -> U.
Variable erased : U.
Hypothesis Klaw : klass_law K stored erased.
Notation obj := (obj U S P).
Notation tree := (tree D S P).
Notation obj_of := (@obj_of U D S P stored erased).
Variable same : P -> P -> bool.
Notation tsame := (fun i j => same (i_post i) (i_post j)).

Lemma osize_of t : osize (obj_of t) = size t.
Proof. induction t; cbn [ObjectSpec.obj_of osize size]; auto. Qed.
Lemma prune_obj_of t : outcome_of (prune_obj K same) (obj_of t) = let! t' := prune tsame t in Ok (obj_of t').
Proof. unfold prune_obj. rewrite outcome_reading, osize_of, (oprune_of _ _ _ Klaw). reflexivity. Qed.
Lemma prune_obj_keeps (s : obj) : keeps (prune_obj K same) s.
Proof. exact (oprune_keeps K same (osize s) s). Qed.

(** ** The fit methods *)
Section Fit.
Context {Args V : Type}.
Variable r : Args -> option P -> res V.
Variable body : Args -> V -> @M U S P.
Variable T : Args -> V -> nat -> option P -> res tree.
Variable do_prune : bool.
Hypothesis Hout : forall a v s, outcome_of (body a v) s = let! t := T a v (at_level (oattrs s)) (at_prior (oattrs s)) in Ok (obj_of t).
Hypothesis Hfront : forall a v s, keeps_front (body a v) s.
Definition fitm (a : Args) : @M U S P :=
  reading (fun self => lifted (r a (at_prior (oattrs self))) (fun v => body a v ;; (if do_prune then prune_obj K same else done))).

Lemma fitm_outcome a s : outcome_of (fitm a) s =
  let! v := r a (at_prior (oattrs s)) in
  let! t := T a v (at_level (oattrs s)) (at_prior (oattrs s)) in
  let! t' := (if do_prune then prune tsame t else Ok t) in Ok (obj_of t').
Proof.
  unfold fitm. rewrite outcome_reading, outcome_lifted. destruct (r a (at_prior (oattrs s))) as [v|e]; cbn [rbind]; [|reflexivity].
  rewrite outcome_then, Hout. destruct (T a v _ _) as [t|e]; cbn [rbind]; [|reflexivity].
  destruct do_prune; [apply prune_obj_of|reflexivity].
Qed.
Lemma fitm_invalid a s e : r a (at_prior (oattrs s)) = Err e -> fitm a s = ([], Some e).
Proof. intros H. unfold fitm, reading. rewrite H. reflexivity. Qed.
Lemma fitm_args a s : keeps_args (fitm a) s.
Proof.
  unfold keeps_args, fitm, reading. cbv beta. destruct (r a (at_prior (oattrs s))) as [v|e]; [|constructor]. cbn [lifted].
  change (keeps_args (body a v ;; (if do_prune then prune_obj K same else done)) s).
  apply keeps_args_then; [apply keeps_front_args, Hfront|]. intros s1 _. apply keeps_keeps_args.
  destruct do_prune; [apply prune_obj_keeps|apply keeps_done].
Qed.
(** A fit that raises leaves [posterior_] as it was. *)
Lemma fitm_raised a s e o : raised (fitm a) s e o -> same_self s o.
Proof.
  intros [He ->]. destruct (r a (at_prior (oattrs s))) as [v|e'] eqn:Hr.
  2:{ rewrite (fitm_invalid a s e' Hr). apply same_self_refl. }
  pose proof (Hfront a v s) as Hf. pose proof (Hout a v s) as Ho. pose proof (fitm_outcome a s) as Hm. rewrite Hr in Hm. cbn [rbind] in Hm.
  assert (E : fitm a s = (body a v ;; (if do_prune then prune_obj K same else done)) s).
  { unfold fitm, reading. rewrite Hr. reflexivity. }
  destruct (T a v (at_level (oattrs s)) (at_prior (oattrs s))) as [t|e'] eqn:Ht; cbn [rbind] in *.
  - exfalso. unfold outcome_of in Hm. destruct (fitm a s) as [tr [x|]]; cbn [snd] in He; [|discriminate].
    destruct do_prune; cbn [rbind] in Hm; [|discriminate]. rewrite prune_correct in Hm. discriminate.
  - rewrite E. unfold andthen, outcome_of, keeps_front in *. destruct (body a v s) as [tr [x|]]; [|discriminate].
    cbn [fst]. apply last_Forall; auto using same_self_refl.
Qed.
(** All states an interrupt of the part before pruning can leave behind. *)
Lemma body_interrupted a v s o : interrupted (body a v) s o -> same_self s o.
Proof. apply front_interrupted, Hfront. Qed.
Lemma fitm_interrupted a s o : do_prune = false -> interrupted (fitm a) s o -> same_self s o.
Proof.
  intros Hp Hi. destruct (r a (at_prior (oattrs s))) as [v|e] eqn:Hr.
  2:{ destruct Hi as [->|(t1 & t2 & Ht & _)]; [apply same_self_refl|]. rewrite (fitm_invalid a s e Hr) in Ht. destruct t1; discriminate. }
  apply (body_interrupted a v). destruct Hi as [->|(t1 & t2 & Ht & Hn)]; [left; auto|right; exists t1, t2; split; auto].
  rewrite <- Ht. unfold fitm, reading. rewrite Hr. cbn [lifted]. rewrite Hp. unfold andthen. destruct (body a v s) as [tr [x|]]; auto.
  cbn. rewrite app_nil_r. reflexivity.
Qed.

(** ** Histories *)
Lemma reachable_args s0 s : reachable fitm s0 s -> same_args s0 s.
Proof.
  induction 1 as [|a s o Hs IH Ho|a s e o Hs IH Ho|a s o Hs IH Ho]; [split; auto| | |].
  - eapply same_args_trans; [exact IH|]. eapply keeps_args_outcome; [apply fitm_args|exact Ho].
  - eapply same_args_trans; [exact IH|]. apply fitm_raised in Ho. apply Ho.
  - eapply same_args_trans; [exact IH|]. destruct Ho as [->|(t1 & t2 & Ht & _)]; [split; auto|].
    pose proof (fitm_args a s) as H. unfold keeps_args in H. rewrite Forall_forall in H. apply H. rewrite Ht. apply in_elt.
Qed.
Lemma refit_same s0 s a : reachable fitm s0 s -> outcome_of (fitm a) s = outcome_of (fitm a) s0.
Proof. intros H. apply reachable_args in H as [Hp Hl]. rewrite !fitm_outcome, Hp, Hl. reflexivity. Qed.
Lemma never_fitted_post s0 s : never_fitted fitm s0 s -> at_post (oattrs s) = at_post (oattrs s0).
Proof.
  induction 1 as [|a s e o Hs IH Ho]; auto. apply fitm_raised in Ho as [_ Ho]. congruence.
Qed.
(** Interrupts included, when trees are not pruned. *)
Lemma fitm_fits a s o : outcome_of (fitm a) s = Ok o -> exists v t,
  r a (at_prior (oattrs s)) = Ok v /\
  (let! t := T a v (at_level (oattrs s)) (at_prior (oattrs s)) in (if do_prune then prune tsame t else Ok t)) = Ok t /\ o = obj_of t.
Proof.
  rewrite fitm_outcome. destruct (r a (at_prior (oattrs s))) as [v|e]; cbn [rbind]; [|discriminate].
  destruct (T a v (at_level (oattrs s)) (at_prior (oattrs s))) as [t|e] eqn:Et; cbn [rbind]; [|discriminate].
  destruct (if do_prune then prune tsame t else Ok t) as [t'|e] eqn:E; cbn [rbind]; [|discriminate].
  intros [= <-]. exists v, t'. split; [reflexivity|]. rewrite Et. split; [exact E|reflexivity].
Qed.
End Fit.

(** ** Queries *)
Lemma unfitted_ensure (o : obj) c : at_post (oattrs o) = None -> ensure_is_fitted o c = Err ValueError.
Proof. intros H. unfold ensure_is_fitted, is_fitted. rewrite H. reflexivity. Qed.
Lemma fitted_ensure t c : i_n_dim (info t) = Some c -> ensure_is_fitted (obj_of t) (Some c) = Ok tt.
Proof.
  intros H. unfold ensure_is_fitted, is_fitted. rewrite obj_of_post. destruct (obj_of_fields stored erased t) as (_ & _ & -> & _).
  rewrite H, Nat.eqb_refl. reflexivity.
Qed.
Lemma wrong_ensure t c n : i_n_dim (info t) = Some n -> c <> n -> ensure_is_fitted (obj_of t) (Some c) = Err ValueError.
Proof.
  intros H Hc. unfold ensure_is_fitted, is_fitted. rewrite obj_of_post. destruct (obj_of_fields stored erased t) as (_ & _ & -> & _).
  rewrite H. apply Nat.eqb_neq in Hc. rewrite Hc. reflexivity.
Qed.
Lemma oimportance_of {Acc} (upd : D -> S -> S -> Acc -> res Acc) (walk : tree -> Acc -> res Acc) :
  (forall i acc, walk (Leaf i) acc = Ok acc) ->
  (forall i d a b c1 c2 acc, walk (Split i d a b c1 c2) acc = let! x := upd d a b acc in let! x1 := walk c1 x in walk c2 x1) ->
  forall t acc, oimportance K upd (obj_of t) acc = walk t acc.
Proof.
  intros Hl Hs. induction t as [i|i d a b c1 IH1 c2 IH2]; intros acc.
  - pose proof (node_split_of K stored erased Klaw (Leaf i : tree)) as Hn. cbn [ObjectSpec.obj_of oimportance] in *. rewrite Hn, Hl. reflexivity.
  - pose proof (node_split_of K stored erased Klaw (Split i d a b c1 c2)) as Hn. cbn [ObjectSpec.obj_of oimportance] in *. rewrite Hn, Hs. cbn [rbind at_best at_no].
    destruct (upd d a b acc) as [x|e]; cbn [rbind]; [|reflexivity]. rewrite IH1. destruct (walk c1 x) as [x1|e]; cbn [rbind]; [|reflexivity]. apply IH2.
Qed.

Section Api.
Context {E A NM : Type}.
Variable cx : cast E A.
Variable x_name : nat -> NM.
Variables go1 go2 : arr A -> D -> nat -> bool.

Definition query_arr (x : xin E NM) (c : nat) : arr A :=
  mkArr [query_rows x; c] (match x with XFrame a _ | XList a | XArray a => a_dtype a | XScalar t _ => t end) (map (as_is cx) (query_data x)).
Lemma normalize_query x c names : query_matrix x c -> exists names', normalize cx x_name x names = Ok (query_arr x c, names').
Proof.
  unfold query_matrix, query_arr, normalize. destruct x as [a cs|a|t e|a].
  - intros (Ht & n & Hs). cbn [rbind fst snd]. unfold ensure_float64. rewrite Ht. cbn [rbind ndim a_shape]. unfold ndim. cbn [a_shape].
    cbn [query_rows query_data]. rewrite Hs. eexists. reflexivity.
  - intros (Ht & [Hs|(n & Hs)]); unfold ndim; rewrite Hs; cbn [length Nat.eqb]; unfold expand_dims; cbn [a_shape]; rewrite ?Hs;
      (destruct names; cbn [rbind fst snd]; unfold ensure_float64; cbn [a_dtype]; rewrite Ht; cbn [rbind a_shape length Nat.eqb]; rewrite ?Hs; cbn [length Nat.eqb query_rows query_data a_data fst snd];
      rewrite ?Hs; eexists; reflexivity).
  - intros (Ht & ->). cbn [rbind fst snd]. unfold ensure_float64. cbn [a_dtype]. rewrite Ht. eexists. reflexivity.
  - intros (Ht & [Hs|(n & Hs)]); unfold ndim; rewrite Hs; cbn [length Nat.eqb]; unfold expand_dims; cbn [a_shape]; rewrite ?Hs;
      (destruct names; cbn [rbind fst snd]; unfold ensure_float64; cbn [a_dtype]; rewrite Ht; cbn [rbind a_shape length Nat.eqb]; rewrite ?Hs; cbn [length Nat.eqb query_rows query_data a_data fst snd];
      rewrite ?Hs; eexists; reflexivity).
Qed.
Lemma validate_query {Y} (cy : cast E Y) check x y names v c : query_matrix x c -> validate cx cy x_name check x y names = Ok v -> v_X v = query_arr x c.
Proof.
  intros Hx. destruct (normalize_query x c names Hx) as (nm & Hn). unfold validate.
  destruct (ensure_float64 cy (squeeze y)) as [z|e]; cbn [rbind]; [|discriminate]. destruct (check z) as [u|e]; cbn [rbind]; [|discriminate].
  rewrite Hn. cbn [rbind fst snd]. destruct (Nat.eqb _ _); [|discriminate]. intros [= <-]. reflexivity.
Qed.
Lemma query_unfitted {O} (val : option P -> P -> O) init (o : obj) x c : at_post (oattrs o) = None -> query_matrix x c ->
  api_query K cx x_name go1 go2 val init o x = Err ValueError.
Proof.
  intros Ho Hx. destruct (normalize_query x c None Hx) as (nm & Hn). unfold api_query. rewrite Hn. cbn [rbind]. rewrite unfitted_ensure; auto.
Qed.
Lemma query_unfitted_raises {O} (val : option P -> P -> O) init (o : obj) x : at_post (oattrs o) = None ->
  exists e, api_query K cx x_name go1 go2 val init o x = Err e.
Proof.
  intros Ho. unfold api_query. destruct (normalize cx x_name x None) as [p|e]; cbn [rbind]; [|eauto]. rewrite unfitted_ensure by auto. cbn [rbind]. eauto.
Qed.
Lemma paths_unfitted {St} (step : D -> bool -> St) (o : obj) x c : at_post (oattrs o) = None -> query_matrix x c ->
  api_paths K cx x_name go1 go2 step o x = Err ValueError.
Proof.
  intros Ho Hx. destruct (normalize_query x c None Hx) as (nm & Hn). unfold api_paths. rewrite Hn. cbn [rbind]. rewrite unfitted_ensure; auto.
Qed.
Lemma query_wrong {O} (val : option P -> P -> O) init t x c n : i_n_dim (info t) = Some n -> c <> n -> query_matrix x c ->
  api_query K cx x_name go1 go2 val init (obj_of t) x = Err ValueError.
Proof.
  intros Ho Hc Hx. destruct (normalize_query x c None Hx) as (nm & Hn). unfold api_query. rewrite Hn. cbn [rbind].
  rewrite (wrong_ensure t _ n); auto.
Qed.
Lemma paths_wrong {St} (step : D -> bool -> St) t x c n : i_n_dim (info t) = Some n -> c <> n -> query_matrix x c ->
  api_paths K cx x_name go1 go2 step (obj_of t) x = Err ValueError.
Proof.
  intros Ho Hc Hx. destruct (normalize_query x c None Hx) as (nm & Hn). unfold api_paths. rewrite Hn. cbn [rbind].
  rewrite (wrong_ensure t _ n); auto.
Qed.
Lemma query_fitted {O} (val : option P -> P -> O) init t x c : i_n_dim (info t) = Some c -> query_matrix x c ->
  api_query K cx x_name go1 go2 val init (obj_of t) x =
  Ok (predict_rows (go1 (query_arr x c)) (go2 (query_arr x c)) (fun i => val (i_prior i) (i_post i)) t (query_rows x) init).
Proof.
  intros Ho Hx. destruct (normalize_query x c None Hx) as (nm & Hn). unfold api_query. rewrite Hn. cbn [rbind fst].
  change (cols (query_arr x c)) with c. rewrite fitted_ensure by auto. cbn [rbind]. rewrite (opredict_of _ _ _ Klaw). reflexivity.
Qed.
Lemma paths_fitted {St} (step : D -> bool -> St) t x c : i_n_dim (info t) = Some c -> query_matrix x c ->
  api_paths K cx x_name go1 go2 step (obj_of t) x =
  Ok (prediction_paths (go1 (query_arr x c)) (go2 (query_arr x c)) step t (query_rows x)).
Proof.
  intros Ho Hx. destruct (normalize_query x c None Hx) as (nm & Hn). unfold api_paths. rewrite Hn. cbn [rbind fst].
  change (cols (query_arr x c)) with c. rewrite fitted_ensure by auto. cbn [rbind]. rewrite (opaths_of _ _ _ Klaw). reflexivity.
Qed.
End Api.
End OfTree.
