(** * VerboseProofs: what a fit with [verbose=True] prints. *)
From Coq Require Import Reals String.
From Verif Require Import Prelude Lists Tree Perp RealOps Clf Reg Api Hyper Spec FitProofs PruneProofs PredictProofs OptSpec OptProofs OptFit OptNodes ClfSpec RegSpec ApiSpec ApiProofs HyperProofs HyperSpec
  Str StrSpec StrProofs ReadSpec ReadProofs ReadModel Verbose.
Local Open Scope nat_scope.

(** The nodes of a tree that were trained, each before its children and child 1 before child 2: level, side, number of rows.  Nodes that
    were not trained have no attribute [n_dim_]. *)
Fixpoint trained {D S P} (s1 s2 side : string) (t : tree D S P) : list (nat * string * nat) :=
  match i_n_dim (info t) with Some _ => [(i_level (info t), side, i_n_data (info t))] | None => [] end ++
  match t with Leaf _ => [] | Split _ _ _ _ c1 c2 => trained s1 s2 s1 c1 ++ trained s1 s2 s2 c2 end.
Definition line_text (x : nat * string * nat) : text := let '(lvl, side, n) := x in train_line lvl side n.

(** [visits left right worth s1 s2 lvl side rows t out]: [out] lists the nodes of [t] that are trained, by the rows that are routed to them
    and without the attributes of the nodes: the root, and every other node whose rows are [worth] it. *)
Fixpoint visits {D S P} (left right : D -> nat -> bool) (worth : list nat -> Prop) (s1 s2 : string) (lvl : nat) (side : string)
    (rows : list nat) (t : tree D S P) (out : list (nat * string * nat)) : Prop :=
  match t with
  | Leaf _ => out = [(lvl, side, List.length rows)]
  | Split _ d _ _ c1 c2 => exists l1 l2, out = (lvl, side, List.length rows) :: l1 ++ l2 /\
      let r1 := filter (left d) rows in let r2 := filter (right d) rows in
      (worth r1 /\ visits left right worth s1 s2 (lvl + 1) s1 r1 c1 l1 \/ ~ worth r1 /\ l1 = []) /\
      (worth r2 /\ visits left right worth s1 s2 (lvl + 1) s2 r2 c2 l2 \/ ~ worth r2 /\ l2 = [])
  end.
(** Two of the rows have different targets. *)
Definition several {Y} (y : nat -> Y) (rows : list nat) : Prop := exists i j, In i rows /\ In j rows /\ y i <> y j.

(** [l] arises from [l'] by leaving out elements. *)
Inductive part_of {A} : list A -> list A -> Prop :=
  | part_nil : part_of [] []
  | part_keep a l l' : part_of l l' -> part_of (a :: l) (a :: l')
  | part_skip a l l' : part_of l l' -> part_of l (a :: l').
Lemma part_none {A} (l : list A) : part_of [] l.
Proof. induction l; constructor; auto. Qed.
Lemma part_refl {A} (l : list A) : part_of l l.
Proof. induction l; constructor; auto. Qed.
Lemma part_app {A} (a a' b b' : list A) : part_of a a' -> part_of b b' -> part_of (a ++ b) (a' ++ b').
Proof. intros H Hb. induction H; cbn [app]; try constructor; auto. Qed.
Lemma part_map {A B} (f : A -> B) l l' : part_of l l' -> part_of (map f l) (map f l').
Proof. induction 1; cbn; constructor; auto. Qed.

Lemma io_bind_snd {A B} (m : io A) (f : A -> io B) : snd (io_bind m f) = rbind (snd m) (fun a => snd (f a)).
Proof. unfold io_bind. destruct (snd m); reflexivity. Qed.
Lemma io_bind_fst {A B} (m : io A) (f : A -> io B) : fst (io_bind m f) = fst m ++ match snd m with Ok a => fst (f a) | Err _ => [] end.
Proof. unfold io_bind. destruct (snd m); cbn [fst]; [reflexivity|]. symmetry. apply app_nil_r. Qed.

Lemma rbind_ext {A B} (r : res A) (f g : A -> res B) : (forall a, f a = g a) -> rbind r f = rbind r g.
Proof. intros H. destruct r; cbn; auto. Qed.

Section Perp.
Context {A V Y P S NM : Type}.
Variable F : feat A V.
Variable L : lik Y P S.
Variable X : nat -> nat -> A.
Variable y : nat -> Y.
Variable names : list NM.
Variable n : nat.

Lemma pfit_v_same verbose fuel : forall side lvl pa idxs,
  snd (pfit_v F L X y names n verbose fuel side lvl pa idxs) = pfit F L X y names fuel lvl pa idxs.
Proof.
  induction fuel as [|fuel IH]; intros side lvl pa idxs; [reflexivity|]. cbn [pfit_v pfit]. rewrite io_bind_snd. unfold say at 1. cbn [snd rbind].
  destruct idxs as [|row0 rest]; [reflexivity|]. set (idxs := row0 :: rest). cbv zeta. set (bst := scan _ _ _ _ _ _ _ _).
  destruct (0 <? b_idx bst)%Z; [|reflexivity]. destruct (nth_error names (Z.to_nat (b_dim bst))); [|reflexivity].
  rewrite io_bind_snd. cbn [snd io_res]. apply rbind_ext. intros sub1. rewrite io_bind_snd. cbn [snd io_res]. apply rbind_ext. intros sub2.
  rewrite io_bind_snd. destruct (_ && _); rewrite ?IH; cbn [snd io_res]; apply rbind_ext; intros c1;
    rewrite io_bind_snd; destruct (_ && _); rewrite ?IH; cbn [snd io_res]; apply rbind_ext; intros c2; reflexivity.
Qed.
Lemma pfit_v_silent fuel : forall side lvl pa idxs, fst (pfit_v F L X y names n false fuel side lvl pa idxs) = [].
Proof.
  induction fuel as [|fuel IH]; intros side lvl pa idxs; [reflexivity|]. cbn [pfit_v]. rewrite io_bind_fst. unfold say at 1. cbn [fst snd app].
  destruct idxs as [|row0 rest]; [reflexivity|]. set (idxs := row0 :: rest). cbv zeta. set (bst := scan _ _ _ _ _ _ _ _).
  unfold say. cbn [snd]. destruct (0 <? b_idx bst)%Z; [|reflexivity]. destruct (nth_error names (Z.to_nat (b_dim bst))); [|reflexivity].
  rewrite io_bind_fst. cbn [fst snd io_res app]. destruct (sub_indices idxs _) as [sub1|]; [|reflexivity].
  rewrite io_bind_fst. cbn [fst snd io_res app]. destruct (sub_indices idxs _) as [sub2|]; [|reflexivity].
  rewrite io_bind_fst. destruct (_ && _); rewrite ?IH; cbn [fst snd io_res app];
    try (match goal with |- match ?r with _ => _ end = _ => destruct r end; [|reflexivity]);
    rewrite io_bind_fst; destruct (_ && _); rewrite ?IH; cbn [fst snd io_res app];
    try (match goal with |- match ?r with _ => _ end = _ => destruct r end); reflexivity.
Qed.
Lemma pfit_v_lines fuel : forall side lvl pa idxs t, pfit F L X y names fuel lvl pa idxs = Ok t ->
  fst (pfit_v F L X y names n true fuel side lvl pa idxs) = map line_text (trained "LHS"%string "RHS"%string side t).
Proof.
  induction fuel as [|fuel IH]; intros side lvl pa idxs t; [discriminate|]. cbn [pfit_v pfit]. rewrite io_bind_fst. unfold say at 1. cbn [fst snd app].
  destruct idxs as [|row0 rest]; [discriminate|]. set (idxs := row0 :: rest). cbv zeta. set (bst := scan _ _ _ _ _ _ _ _).
  unfold say. cbn [snd]. destruct (0 <? b_idx bst)%Z; [|intros [= <-]; reflexivity].
  destruct (nth_error names (Z.to_nat (b_dim bst))); [|discriminate].
  rewrite io_bind_fst. cbn [fst snd io_res app]. destruct (sub_indices idxs _) as [sub1|]; [|discriminate]. cbn [rbind].
  rewrite io_bind_fst. cbn [fst snd io_res app]. destruct (sub_indices idxs _) as [sub2|]; [|discriminate]. cbn [rbind].
  intros H. rewrite io_bind_fst.
  destruct (_ && _); [match type of H with rbind ?r _ = _ => destruct r as [c1|] eqn:E1 end; [|discriminate]; rewrite (IH _ _ _ _ _ E1), pfit_v_same, E1|];
    cbn [rbind fst snd io_res app] in *; rewrite io_bind_fst;
    (destruct (_ && _); [match type of H with rbind ?r _ = _ => destruct r as [c2|] eqn:E2 end; [|discriminate]; rewrite (IH _ _ _ _ _ E2), pfit_v_same, E2|]);
    cbn [rbind fst snd io_res app] in *; injection H as <-; cbn [trained info i_n_dim i_level i_n_data app]; rewrite ?map_cons, ?map_app; cbn [map];
    rewrite ?app_nil_r; reflexivity.
Qed.
End Perp.

Section Hyper.
Context {W C N O J E Y P S : Type}.
Variable G : geo W C N O J E.
Variable L : lik Y P S.
Variable post : R -> P -> list Y -> P.
Variable X : nat -> W.
Variable y : nat -> Y.
Variable n_dim : nat.
Variable cands : list bool -> list C.

Lemma hfit_v_same verbose fuel : forall side lvl path pa rows,
  snd (hfit_v G L post X y n_dim cands verbose fuel side lvl path pa rows) = hfit G L post X y n_dim cands fuel lvl path pa rows.
Proof.
  induction fuel as [|fuel IH]; intros side lvl path pa rows; [reflexivity|]. cbn [hfit_v hfit]. rewrite io_bind_snd. unfold say at 1. cbn [snd rbind].
  cbv zeta. destruct (o_plane _) as [pl|]; [|reflexivity]. destruct ((0 <? _) && _); [|reflexivity].
  rewrite io_bind_snd. destruct ((1 <? _) && _); rewrite ?IH; cbn [snd io_res]; apply rbind_ext; intros c1;
    rewrite io_bind_snd; destruct ((1 <? _) && _); rewrite ?IH; cbn [snd io_res]; apply rbind_ext; intros c2; reflexivity.
Qed.
Lemma hfit_v_silent fuel : forall side lvl path pa rows, fst (hfit_v G L post X y n_dim cands false fuel side lvl path pa rows) = [].
Proof.
  induction fuel as [|fuel IH]; intros side lvl path pa rows; [reflexivity|]. cbn [hfit_v]. rewrite io_bind_fst. unfold say at 1. cbn [fst snd app].
  cbv zeta. unfold say. cbn [snd]. destruct (o_plane _) as [pl|]; [|reflexivity]. destruct ((0 <? _) && _); [|reflexivity].
  rewrite io_bind_fst. destruct ((1 <? _) && _); rewrite ?IH; cbn [fst snd io_res app];
    try (match goal with |- match ?r with _ => _ end = _ => destruct r end; [|reflexivity]);
    rewrite io_bind_fst; destruct ((1 <? _) && _); rewrite ?IH; cbn [fst snd io_res app];
    try (match goal with |- match ?r with _ => _ end = _ => destruct r end); reflexivity.
Qed.
Definition lworth (rows : list nat) : Prop := 1 < List.length rows /\ l_many L (map y rows) = true.
Lemma lworth_dec rows : if (1 <? List.length rows) && l_many L (map y rows) then lworth rows else ~ lworth rows.
Proof.
  unfold lworth. destruct (Nat.ltb_spec 1 (List.length rows)); cbn [andb]; [|lia]. destruct (l_many L (map y rows)); [auto|]. intros []. discriminate.
Qed.
Lemma hfit_v_lines fuel : forall side lvl path pa rows t, hfit G L post X y n_dim cands fuel lvl path pa rows = Ok t ->
  exists out, visits (hgo1 G X) (hgo2 G X) lworth "back "%string "front"%string lvl side rows t out /\
  fst (hfit_v G L post X y n_dim cands true fuel side lvl path pa rows) = map line_text out.
Proof.
  induction fuel as [|fuel IH]; intros side lvl path pa rows t; [discriminate|]. cbn [hfit_v hfit]. rewrite io_bind_fst. unfold say at 1. cbn [fst snd app].
  cbv zeta. unfold say. cbn [snd]. destruct (o_plane _) as [pl|]; [|intros [= <-]; eexists; split; reflexivity].
  destruct ((0 <? _) && _); [|intros [= <-]; eexists; split; reflexivity].
  intros H. rewrite io_bind_fst.
  pose proof (lworth_dec (filter (hgo1 G X pl) rows)) as W1. pose proof (lworth_dec (filter (hgo2 G X pl) rows)) as W2.
  fold (hgo1 G X pl) in *. fold (hgo2 G X pl) in *.
  destruct ((1 <? List.length (filter (hgo1 G X pl) rows)) && l_many L (map y (filter (hgo1 G X pl) rows)));
    [match type of H with rbind ?r _ = _ => destruct r as [c1|] eqn:E1 end; [|discriminate]; destruct (IH "back "%string _ _ _ _ _ E1) as (o1 & V1 & O1); rewrite O1, hfit_v_same, E1|];
    cbn [rbind fst snd io_res app] in *; rewrite io_bind_fst;
    (destruct ((1 <? List.length (filter (hgo2 G X pl) rows)) && l_many L (map y (filter (hgo2 G X pl) rows)));
     [match type of H with rbind ?r _ = _ => destruct r as [c2|] eqn:E2 end; [|discriminate]; destruct (IH "front"%string _ _ _ _ _ E2) as (o2 & V2 & O2); rewrite O2, hfit_v_same, E2|]);
    cbn [rbind fst snd io_res app] in *; injection H as <-.
  - exists ((lvl, side, List.length rows) :: o1 ++ o2). split; [exists o1, o2; auto|]. cbn [map line_text]. rewrite map_app, app_nil_r. reflexivity.
  - exists ((lvl, side, List.length rows) :: o1 ++ []). split; [exists o1, []; auto|]. cbn [map line_text]. rewrite map_app. reflexivity.
  - exists ((lvl, side, List.length rows) :: o2). split; [exists [], o2; auto|]. cbn [map line_text]. rewrite app_nil_r. reflexivity.
  - exists [(lvl, side, List.length rows)]. split; [exists [], []; auto|]. reflexivity.
Qed.
End Hyper.

(** ** Whole fits *)
Lemma perp_v_same {A V Y P S} (F : feat A V) (L : lik Y P S) same prn lvl pa verbose d :
  snd (perp_fit_v F L same prn lvl pa verbose d) = perp_fit F L same prn lvl pa d.
Proof. unfold perp_fit_v, perp_fit, pfit_root. rewrite io_bind_snd, pfit_v_same. apply rbind_ext. reflexivity. Qed.
Lemma hyper_v_same {W C N O J E Y P S} (G : geo W C N O J E) (L : lik Y P S) post same prn lvl pa cands verbose d :
  snd (hyper_fit_v G L post same prn lvl pa cands verbose d) = hyper_fit G L post same prn lvl pa cands d.
Proof. unfold hyper_fit_v, hyper_fit. rewrite io_bind_snd, hfit_v_same. apply rbind_ext. reflexivity. Qed.
Lemma io_res_end {A B} (m : io A) (f : A -> res B) : fst (do! t := m in io_res (f t)) = fst m.
Proof. rewrite io_bind_fst. unfold io_res. cbn [fst]. destruct (snd m); apply app_nil_r. Qed.
Lemma perp_v_silent {A V Y P S} (F : feat A V) (L : lik Y P S) same prn lvl pa d : fst (perp_fit_v F L same prn lvl pa false d) = [].
Proof. unfold perp_fit_v. rewrite io_res_end. apply pfit_v_silent. Qed.
Lemma hyper_v_silent {W C N O J E Y P S} (G : geo W C N O J E) (L : lik Y P S) post same prn lvl pa cands d :
  fst (hyper_fit_v G L post same prn lvl pa cands false d) = [].
Proof. unfold hyper_fit_v. rewrite io_res_end. apply hfit_v_silent. Qed.

Lemma perp_v_lines {A V Y P S} (F : feat A V) (L : lik Y P S) same prn lvl pa d t : perp_fit F L same false lvl pa d = Ok t ->
  fst (perp_fit_v F L same prn lvl pa true d) = map line_text (trained "LHS"%string "RHS"%string "root"%string t).
Proof.
  unfold perp_fit_v, perp_fit, pfit_root. rewrite io_res_end. intros H. destruct (pfit _ _ _ _ _ _ _ _ _) eqn:E; [|discriminate].
  injection H as <-. eapply pfit_v_lines; eauto.
Qed.
Lemma hyper_v_lines {W C N O J E Y P S} (G : geo W C N O J E) (L : lik Y P S) post same prn lvl pa cands d t :
  hyper_fit G L post same false lvl pa cands d = Ok t ->
  exists out, visits (hgo1 G (hs_X d)) (hgo2 G (hs_X d)) (lworth L (hs_y d)) "back "%string "front"%string lvl "root"%string (seq 0 (hs_n d)) t out /\
  fst (hyper_fit_v G L post same prn lvl pa cands true d) = map line_text out.
Proof.
  unfold hyper_fit_v, hyper_fit. rewrite io_res_end. intros H. destruct (hfit _ _ _ _ _ _ _ _ _ _ _ _) eqn:E0; [|discriminate].
  injection H as <-. eapply hfit_v_lines; eauto.
Qed.
Lemma hyper_v_trained {W C N O J E Y P S} (G : geo W C N O J E) (L : lik Y P S) post same prn lvl pa cands d t :
  hyper_fit G L post same false lvl pa cands d = Ok t ->
  fst (hyper_fit_v G L post same prn lvl pa cands true d) = map line_text (trained "back "%string "front"%string "root"%string t).
Proof.
  unfold hyper_fit_v, hyper_fit. rewrite io_res_end. intros H. destruct (hfit _ _ _ _ _ _ _ _ _ _ _ _) as [t0|] eqn:E0; [|discriminate].
  injection H as <-. revert E0. generalize (Datatypes.S (hs_n d)), "root"%string, lvl, (@nil bool), pa, (seq 0 (hs_n d)). clear.
  intros fuel. revert t0. induction fuel as [|fuel IH]; intros t side lvl path pa rows; [discriminate|]. cbn [hfit_v hfit]. rewrite io_bind_fst. unfold say at 1. cbn [fst snd app].
  cbv zeta. unfold say. cbn [snd]. destruct (o_plane _) as [pl|]; [|intros [= <-]; reflexivity].
  destruct ((0 <? _) && _); [|intros [= <-]; reflexivity]. intros H. rewrite io_bind_fst.
  destruct ((1 <? _) && _); [match type of H with rbind ?r _ = _ => destruct r as [c1|] eqn:E1 end; [|discriminate]; rewrite (IH _ _ _ _ _ _ E1), hfit_v_same, E1|];
    cbn [rbind fst snd io_res app] in *; rewrite io_bind_fst;
    (destruct ((1 <? _) && _); [match type of H with rbind ?r _ = _ => destruct r as [c2|] eqn:E2 end; [|discriminate]; rewrite (IH _ _ _ _ _ _ E2), hfit_v_same, E2|]);
    cbn [rbind fst snd io_res app] in *; injection H as <-; cbn [trained info i_n_dim i_level i_n_data app]; rewrite ?map_cons, ?map_app; cbn [map];
    rewrite ?app_nil_r; reflexivity.
Qed.

(** ** Pruning *)
Lemma trained_pruned {D S P} (t t' : tree D S P) : pruned_of t t' -> forall s1 s2 side, part_of (trained s1 s2 side t') (trained s1 s2 side t).
Proof.
  induction 1; intros s1 s2 side; cbn [trained info]; apply part_app; try apply part_refl; try apply part_none. apply part_app; auto.
Qed.
Lemma perp_v_kept {A V Y P S} (F : feat A V) (L : lik Y P S) same prn lvl pa d t : perp_fit F L same prn lvl pa d = Ok t ->
  part_of (map line_text (trained "LHS"%string "RHS"%string "root"%string t)) (fst (perp_fit_v F L same prn lvl pa true d)).
Proof.
  intros H. destruct (perp_fit_inv _ _ _ _ _ _ _ _ H) as (t0 & E & _ & Hpr).
  rewrite (perp_v_lines F L same prn lvl pa d t0) by (unfold perp_fit; rewrite E; reflexivity). apply part_map, trained_pruned, Hpr.
Qed.
Lemma hyper_v_kept {W C N O J E Y P S} (G : geo W C N O J E) (L : lik Y P S) post same prn lvl pa cands d t :
  hyper_fit G L post same prn lvl pa cands d = Ok t ->
  part_of (map line_text (trained "back "%string "front"%string "root"%string t)) (fst (hyper_fit_v G L post same prn lvl pa cands true d)).
Proof.
  intros H. destruct (hyper_fit_inv _ _ _ _ _ _ _ _ _ _ H) as (t0 & E0 & Hpr).
  rewrite (hyper_v_trained G L post same prn lvl pa cands d t0) by (unfold hyper_fit; rewrite E0; reflexivity). apply part_map, trained_pruned. tauto.
Qed.
