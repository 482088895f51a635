(** * NamesProofs: names of split columns; arguments of the wrong shape. *)
From Coq Require Import QArith Qreals Reals Lra Lia.
From Coq Require String.
From Verif Require Import Prelude Tree Perp RealOps Clf Reg Api Spec FitProofs PruneProofs PathProofs ApiSpec Exec Witness Hyper Object ObjectSpec ObjectProofs Validate ValidateProofs
  Model ModelSpec ModelProofs ModelFit ModelLemmas ModelTargets ModelClasses ModelWitness CastSpec CastProofs NamesSpec.
Local Open Scope nat_scope.

(** ** Splits of a grown tree *)
Fixpoint tree_named {NM V S P} (names : list NM) (m : nat) (t : tree (pdesc NM V) S P) : Prop :=
  match t with
  | Leaf _ => True
  | Split _ d _ _ c1 c2 => sd_dim d < m /\ nth_error names (sd_dim d) = Some (sd_name d) /\ tree_named names m c1 /\ tree_named names m c2
  end.
Lemma chunks_length {A} n w (l : list A) : length (chunks n w l) = n.
Proof. revert l. induction n; intros l; cbn; auto. Qed.
Lemma reshape_length {A} n (l : list A) ls : reshape_rows n l = Ok ls -> length ls = n.
Proof. unfold reshape_rows. destruct n; [discriminate|]. destruct (Nat.eqb _ _); [|discriminate]. intros [= <-]. apply (chunks_length (S n)). Qed.

Section Grown.
Context {A V Y P S NM : Type}.
Variable F : feat A V.
Variable L : lik Y P S.
Variable X : nat -> nat -> A.
Variable y : nat -> Y.

Lemma pfit_named (names : list NM) fuel : forall lvl pa idxs t, pfit F L X y names fuel lvl pa idxs = Ok t -> tree_named names (length idxs) t.
Proof.
  induction fuel as [|fuel IH]; [discriminate|]. intros lvl pa idxs t. cbn [pfit]. destruct idxs as [|row0 rest] eqn:Ei; [discriminate|]. rewrite <- Ei. clear Ei.
  match goal with |- context [scan F L X y ?a ?b ?c ?d] => pose proof (scan_cases F L X y a b c d) as Hsc; set (bst := scan F L X y a b c d) in * end.
  destruct (0 <? b_idx bst)%Z eqn:Eb; [|intros [= <-]; exact I].
  destruct Hsc as [Hsc|(dim & row & k & j & Hrow & Hd & _)]; [rewrite Hsc in Eb; discriminate|]. rewrite Hd, Nat2Z.id.
  assert (Hdim : dim < length idxs) by (apply nth_error_Some; congruence).
  destruct (nth_error names dim) as [nm|] eqn:En; [|discriminate].
  match goal with |- (let! x := ?r in _) = _ -> _ => destruct r as [s1|] eqn:E1; [|discriminate] end. cbn [rbind].
  match goal with |- (let! x := ?r in _) = _ -> _ => destruct r as [s2|] eqn:E2; [|discriminate] end. cbn [rbind].
  apply reshape_length in E1, E2.
  match goal with |- (let! x := ?r in _) = _ -> _ => destruct r as [c1|] eqn:H1; [|discriminate] end. cbn [rbind].
  match goal with |- (let! x := ?r in _) = _ -> _ => destruct r as [c2|] eqn:H2; [|discriminate] end. cbn [rbind].
  intros [= <-]. cbn [tree_named sd_dim sd_name]. split; [exact Hdim|]. split; [exact En|]. split.
  - match type of H1 with (if ?b then _ else _) = _ => destruct b end; [apply IH in H1; rewrite E1 in H1; exact H1|injection H1 as <-; exact I].
  - match type of H2 with (if ?b then _ else _) = _ => destruct b end; [apply IH in H2; rewrite E2 in H2; exact H2|injection H2 as <-; exact I].
Qed.
(** Only the names of split columns are read. *)
Lemma pfit_names (names names' : list NM) fuel : forall lvl pa idxs t m, pfit F L X y names fuel lvl pa idxs = Ok t -> tree_named names' m t ->
  pfit F L X y names' fuel lvl pa idxs = Ok t.
Proof.
  induction fuel as [|fuel IH]; [discriminate|]. intros lvl pa idxs t m. cbn [pfit]. destruct idxs as [|row0 rest] eqn:Ei; [discriminate|]. rewrite <- Ei. clear Ei.
  match goal with |- context [if ?b then _ else _] => destruct b end; [|auto].
  match goal with |- context [nth_error names ?d] => set (dim := d) end.
  destruct (nth_error names dim) as [nm|] eqn:En; [|discriminate].
  match goal with |- (let! x := ?r in _) = _ -> _ => destruct r as [s1|] eqn:E1; [|discriminate] end. cbn [rbind].
  match goal with |- (let! x := ?r in _) = _ -> _ => destruct r as [s2|] eqn:E2; [|discriminate] end. cbn [rbind].
  match goal with |- (let! x := ?r in _) = _ -> _ => destruct r as [c1|] eqn:H1; [|discriminate] end. cbn [rbind].
  match goal with |- (let! x := ?r in _) = _ -> _ => destruct r as [c2|] eqn:H2; [|discriminate] end. cbn [rbind].
  intros [= <-]. cbn [tree_named sd_dim sd_name]. intros (_ & Hn & Ht1 & Ht2). rewrite Hn.
  match goal with |- (let! x := ?r in _) = _ => replace r with (Ok c1 : res (tree (pdesc NM V) S P)) end.
  2: { symmetry. match type of H1 with (if ?b then _ else _) = _ => destruct b end; [eapply IH; eauto|exact H1]. }
  cbn [rbind].
  match goal with |- (let! x := ?r in _) = _ => replace r with (Ok c2 : res (tree (pdesc NM V) S P)) end.
  2: { symmetry. match type of H2 with (if ?b then _ else _) = _ => destruct b end; [eapply IH; eauto|exact H2]. }
  reflexivity.
Qed.
End Grown.
Lemma pruned_named {NM V S P} (names : list NM) m (t t' : tree (pdesc NM V) S P) : pruned_of t t' -> tree_named names m t -> tree_named names m t'.
Proof. induction 1; cbn [tree_named]; intuition. Qed.
Lemma perp_obj_named {NM V S P} (names : list NM) m (t : tree (pdesc NM V) S P) : tree_named names m t ->
  forall n, within n (perp_obj t) -> named names m (at_split (oattrs n)).
Proof.
  induction t as [i|i d a b c1 IH1 c2 IH2]; intros H n Hn; unfold perp_obj in Hn; cbn [obj_of] in Hn.
  - inversion Hn; subst. intros v. discriminate.
  - cbn [tree_named] in H. destruct H as (Hd & Hnm & H1 & H2). inversion Hn as [Hs|a' o c2' Ho|a' o c1' Ho]; subst.
    + intros v _. cbn. exists (sd_dim d), (sd_name d). auto.
    + apply IH1; auto.
    + apply IH2; auto.
Qed.

(** ** Steps of prediction paths *)
Section Paths.
Context {D S P St : Type}.
Variables go1 go2 : D -> nat -> bool.
Variable step : D -> bool -> St.
Variable Q : D -> Prop.
Variable R : St -> Prop.
Hypothesis HQ : forall d b, Q d -> R (step d b).
Fixpoint tree_all (t : tree D S P) : Prop :=
  match t with Leaf _ => True | Split _ d _ _ c1 c2 => Q d /\ tree_all c1 /\ tree_all c2 end.
Lemma append_all r x (h : list (list St)) : R x -> Forall (Forall R) h -> Forall (Forall R) (append_at r x h).
Proof.
  intros Hx Hh. unfold append_at. assert (Hr : Forall R (nth r h [] ++ [x])).
  { apply Forall_app. split; auto. destruct (Nat.lt_ge_cases r (length h)); [|rewrite nth_overflow by lia; constructor].
    rewrite Forall_forall in Hh. apply Hh, nth_In. auto. }
  revert Hr. generalize (nth r h [] ++ [x]). intros l Hl. clear x Hx. revert r. induction Hh; intros r; destruct r; cbn; auto.
Qed.
Lemma fold_append_all x refs : forall (h : list (list St)), R x -> Forall (Forall R) h -> Forall (Forall R) (fold_left (fun h r => append_at r x h) refs h).
Proof. induction refs as [|r refs IH]; intros h Hx Hh; cbn; auto. apply IH; auto. apply append_all; auto. Qed.
Lemma update_all (t : tree D S P) : tree_all t -> forall idx refs h, Forall (Forall R) h -> Forall (Forall R) (update_paths go1 go2 step t idx refs h).
Proof.
  induction t as [i|i d a b c1 IH1 c2 IH2]; intros Ht idx refs h Hh; cbn [update_paths]; auto.
  destruct Ht as (Hd & H1 & H2). set (h2 := fold_left _ _ (fold_left _ _ _)).
  assert (Forall (Forall R) h2) by (apply fold_append_all; auto; apply fold_append_all; auto).
  destruct (_ && negb (is_leaf c2)); [apply IH2; auto|]; (destruct (_ && negb (is_leaf c1)); [apply IH1; auto|auto]).
Qed.
End Paths.

(** ** Names and shapes of validated arguments *)
Lemma ensure_shape {E A} (c : cast E A) a b : ensure_float64 c a = Ok b -> a_shape b = a_shape a.
Proof. intros H. apply (ensure_faithful c a b H). Qed.
Section Arguments.
Context {E A NM : Type}.
Variable c : cast E A.
Variable x_name : nat -> NM.
Lemma normalize_shape x names p : normalize c x_name x names = Ok p ->
  exists m, query_matrix (with_dtype F64 x) m /\ cols (fst p) = m /\ len (fst p) = query_rows x /\
    snd p = match names, x with Some l, _ => l | None, XFrame _ columns => columns | None, _ => map x_name (seq 0 m) end.
Proof.
  assert (H2 : forall (b : arr A) s, a_shape b = s -> Nat.eqb (ndim b) 2 = true -> exists n m, s = [n; m]).
  { intros b s <- Hb. apply Nat.eqb_eq in Hb. unfold ndim in Hb. destruct (a_shape b) as [|n [|m [|? ?]]]; try discriminate. eauto. }
  unfold normalize. destruct x as [a cs|a|t e|a]; cbn [rbind fst snd with_dtype query_matrix query_rows a_shape a_dtype supported].
  - destruct (ensure_float64 c a) as [b|] eqn:Eb; [|discriminate]. cbn [rbind]. apply ensure_shape in Eb.
    destruct (Nat.eqb (ndim b) 2) eqn:E2; [|discriminate]. intros [= <-]. destruct (H2 _ _ Eb E2) as (n & m & Es). exists m.
    unfold cols, len. cbn [fst snd]. rewrite Eb, Es. cbn. repeat split; eauto; destruct names; auto.
  - destruct (Nat.eqb (ndim a) 1) eqn:E1.
    + apply Nat.eqb_eq in E1. unfold ndim in E1. destruct (a_shape a) as [|k [|? ?]] eqn:Ea; try discriminate.
      unfold expand_dims. cbn [a_shape]. rewrite Ea. intros H. exists k.
      assert (exists b nms, ensure_float64 c {| a_shape := [1; k]; a_dtype := a_dtype a; a_data := a_data a |} = Ok b /\ p = (b, nms) /\
        nms = match names with Some l => l | None => map x_name (seq 0 k) end) as (b & nms & Eb & -> & Hn).
      { destruct names; cbn [rbind fst snd] in H; destruct (ensure_float64 c _) as [b|]; try discriminate; cbn [rbind] in H;
          destruct (Nat.eqb _ _); try discriminate; injection H as <-; eauto. }
      apply ensure_shape in Eb. unfold cols, len. cbn [fst snd]. rewrite Eb. cbn. repeat split; eauto.
    + intros H.
      assert (exists b nms, ensure_float64 c a = Ok b /\ p = (b, nms) /\ Nat.eqb (ndim b) 2 = true /\
        nms = match names with Some l => l | None => map x_name (seq 0 (nth 1 (a_shape a) 0)) end) as (b & nms & Eb & -> & E2 & Hn).
      { destruct names; cbn [rbind fst snd] in H.
        - destruct (ensure_float64 c a) as [b|]; [|discriminate]. cbn [rbind] in H. destruct (Nat.eqb (ndim b) 2) eqn:E2; [|discriminate].
          injection H as <-. eauto 6.
        - destruct (a_shape a) as [|k [|m r]]; cbn [rbind fst snd] in H; try discriminate.
          destruct (ensure_float64 c a) as [b|]; [|discriminate]. cbn [rbind] in H. destruct (Nat.eqb (ndim b) 2) eqn:E2; [|discriminate].
          injection H as <-. eauto 6. }
      apply ensure_shape in Eb. destruct (H2 _ _ Eb E2) as (n & m & Es). exists m. unfold cols, len. cbn [fst snd]. rewrite Eb, Es in *. cbn in *. repeat split; eauto.
  - destruct (ensure_float64 c _) as [b|] eqn:Eb; [|discriminate]. cbn [rbind]. apply ensure_shape in Eb.
    destruct (Nat.eqb (ndim b) 2) eqn:E2; [|discriminate]. intros [= <-]. exists 1.
    unfold cols, len. cbn [fst snd]. rewrite Eb. cbn. repeat split; eauto; destruct names; auto.
  - destruct (Nat.eqb (ndim a) 1) eqn:E1.
    + apply Nat.eqb_eq in E1. unfold ndim in E1. destruct (a_shape a) as [|k [|? ?]] eqn:Ea; try discriminate.
      unfold expand_dims. cbn [a_shape]. rewrite Ea. intros H. exists k.
      assert (exists b nms, ensure_float64 c {| a_shape := [1; k]; a_dtype := a_dtype a; a_data := a_data a |} = Ok b /\ p = (b, nms) /\
        nms = match names with Some l => l | None => map x_name (seq 0 k) end) as (b & nms & Eb & -> & Hn).
      { destruct names; cbn [rbind fst snd] in H; destruct (ensure_float64 c _) as [b|]; try discriminate; cbn [rbind] in H;
          destruct (Nat.eqb _ _); try discriminate; injection H as <-; eauto. }
      apply ensure_shape in Eb. unfold cols, len. cbn [fst snd]. rewrite Eb. cbn. repeat split; eauto.
    + intros H.
      assert (exists b nms, ensure_float64 c a = Ok b /\ p = (b, nms) /\ Nat.eqb (ndim b) 2 = true /\
        nms = match names with Some l => l | None => map x_name (seq 0 (nth 1 (a_shape a) 0)) end) as (b & nms & Eb & -> & E2 & Hn).
      { destruct names; cbn [rbind fst snd] in H.
        - destruct (ensure_float64 c a) as [b|]; [|discriminate]. cbn [rbind] in H. destruct (Nat.eqb (ndim b) 2) eqn:E2; [|discriminate].
          injection H as <-. eauto 6.
        - destruct (a_shape a) as [|k [|m r]]; cbn [rbind fst snd] in H; try discriminate.
          destruct (ensure_float64 c a) as [b|]; [|discriminate]. cbn [rbind] in H. destruct (Nat.eqb (ndim b) 2) eqn:E2; [|discriminate].
          injection H as <-. eauto 6. }
      apply ensure_shape in Eb. destruct (H2 _ _ Eb E2) as (n & m & Es). exists m. unfold cols, len. cbn [fst snd]. rewrite Eb, Es in *. cbn in *. repeat split; eauto.
Qed.
Lemma normalize_no_matrix x names : (forall m, ~ query_matrix (with_dtype F64 x) m) -> exists ex, normalize c x_name x names = Err ex.
Proof.
  intros H. destruct (normalize c x_name x names) as [p|ex] eqn:En; [|eauto]. destruct (normalize_shape _ _ _ En) as (m & Hm & _). destruct (H m Hm).
Qed.
Lemma normalize_deep x names : 2 < ndim (match x with XFrame a _ | XList a | XArray a => a | XScalar t e => mkArr [1; 1] t [e] end) ->
  supported (query_dtype x) = true -> normalize c x_name x names = Err ValueError.
Proof.
  unfold normalize. destruct x as [a cs|a|t e|a]; cbn [query_dtype]; intros Hd Ht.
  - cbn [rbind fst snd]. unfold ensure_float64. rewrite Ht. cbn [rbind]. unfold ndim in *. cbn [a_shape]. destruct (a_shape a) as [|? [|? [|? ?]]]; cbn in Hd; try lia. reflexivity.
  - unfold ndim in *. destruct (a_shape a) as [|? [|? [|? ?]]] eqn:Ea; cbn in Hd; try lia. cbn [length Nat.eqb]. rewrite Ea. destruct names; cbn [rbind fst snd];
      unfold ensure_float64; rewrite Ht; cbn [rbind]; unfold ndim; cbn [a_shape]; rewrite Ea; reflexivity.
  - cbn in Hd. lia.
  - unfold ndim in *. destruct (a_shape a) as [|? [|? [|? ?]]] eqn:Ea; cbn in Hd; try lia. cbn [length Nat.eqb]. rewrite Ea. destruct names; cbn [rbind fst snd];
      unfold ensure_float64; rewrite Ht; cbn [rbind]; unfold ndim; cbn [a_shape]; rewrite Ea; reflexivity.
Qed.
(** A query frame is read as the array of its values. *)
Lemma normalize_frame a cs n m : a_shape a = [n; m] ->
  (let! p := normalize c x_name (XFrame a cs) None in Ok (fst p)) = (let! p := normalize c x_name (XArray a) None in Ok (fst p)).
Proof.
  intros Hs. unfold normalize. replace (Nat.eqb (ndim a) 1) with false by (unfold ndim; rewrite Hs; reflexivity). rewrite Hs. cbn [rbind fst snd].
  destruct (ensure_float64 c a) as [b|]; [|reflexivity]. cbn [rbind]. destruct (Nat.eqb _ _); reflexivity.
Qed.
End Arguments.
Lemma bind_fst {B C Z} (r : res (B * C)) (f : B -> res Z) : (let! p := r in f (fst p)) = (let! b := (let! p := r in Ok (fst p)) in f b).
Proof. destruct r; reflexivity. Qed.

Lemma validate_shape {E A Y NM} (cx : cast E A) (cy : cast E Y) (x_name : nat -> NM) check x y names v :
  validate cx cy x_name check x y names = Ok v ->
  exists m, query_matrix (with_dtype F64 x) m /\ cols (v_X v) = m /\ len (v_X v) = query_rows x /\ query_rows x = len (squeeze y) /\
    v_names v = documented_names x_name (mkArgs x y names) m.
Proof.
  unfold validate. destruct (ensure_float64 cy (squeeze y)) as [z|] eqn:Ez; [|discriminate]. cbn [rbind].
  destruct (check z); [|discriminate]. cbn [rbind]. destruct (normalize cx x_name x names) as [p|] eqn:Ep; [|discriminate]. cbn [rbind].
  destruct (Nat.eqb _ _) eqn:El; [|discriminate]. intros [= <-]. cbn [v_X v_y v_names]. apply Nat.eqb_eq in El.
  destruct (normalize_shape cx x_name x names p Ep) as (m & H1 & H2 & H3 & H4). exists m. repeat split; auto.
  rewrite <- H3, El. apply ensure_shape in Ez. unfold len. rewrite Ez. reflexivity.
Qed.

(** ** Estimators *)
Section Est.
Context {E A V W C J Q Y P NM : Type}.

Lemma pe_grown_named (e : perp_est E A V Y P NM) a s o : outcome_of (pe_fit e a) s = Ok o ->
  exists m t, query_matrix (with_dtype F64 (fa_X a)) m /\ o = perp_obj t /\ tree_named (documented_names (pe_name e) a m) m t.
Proof.
  intros H. apply perp_fits in H as (v & t & Hv & Ht & -> & Hn). destruct (validate_shape _ _ _ _ _ _ _ _ Hv) as (m & Hm & Hc & _ & _ & Hnm).
  exists m, t. split; auto. split; auto. destruct a as [x y names]. cbn [fa_X fa_y fa_names] in *. rewrite <- Hnm.
  destruct (pfit_root _ _ _ _ _ _ _ _ _) as [t0|] eqn:E0; [|discriminate]. cbn [rbind] in Ht.
  assert (H0 : tree_named (v_names v) m t0).
  { apply pfit_named in E0. unfold root_indices in E0. rewrite map_length, seq_length, Hc in E0. exact E0. }
  destruct (pe_prune e); [|injection Ht as <-; exact H0]. rewrite prune_correct in Ht. injection Ht as <-.
  eapply pruned_named; [apply prune_bu_pruned|exact H0].
Qed.
Lemma pe_names (e : perp_est E A V Y P NM) a s o : outcome_of (pe_fit e a) s = Ok o ->
  exists m, query_matrix (with_dtype F64 (fa_X a)) m /\
    forall n, within n o -> named (documented_names (pe_name e) a m) m (at_split (oattrs n)).
Proof.
  intros H. destruct (pe_grown_named e a s o H) as (m & t & Hm & -> & Ht). exists m. split; auto. apply perp_obj_named; auto.
Qed.
Lemma pe_path_names (e : perp_est E A V Y P NM) a s o x r : outcome_of (pe_fit e a) s = Ok o ->
  pe_paths e (fun d (_ : bool) => (sd_dim d, sd_name d)) o x = Ok r ->
  exists m, query_matrix (with_dtype F64 (fa_X a)) m /\ query_matrix (with_dtype F64 x) m /\ length r = query_rows x /\
    forall path dim nm, In path r -> In (dim, nm) path -> dim < m /\ nth_error (documented_names (pe_name e) a m) dim = Some nm.
Proof.
  intros H Hp. pose proof (perp_fits _ _ _ _ _ _ _ _ _ _ _ _ _ H) as (v & t0 & Hv & _ & -> & Hnd).
  destruct (validate_shape _ _ _ _ _ _ _ _ Hv) as (m' & Hm' & Hc' & _).
  destruct (pe_grown_named e a s _ H) as (m & t & Hm & Ho & Ht). rewrite Ho in Hp. exists m. split; auto.
  assert (Em : m' = m).
  { destruct (fa_X a) as [b cs|b|ty b|b]; cbn in Hm, Hm'.
    - destruct Hm as (_ & n & E1), Hm' as (_ & n' & E2). congruence.
    - destruct Hm as (_ & [E1|(n & E1)]), Hm' as (_ & [E2|(n' & E2)]); congruence.
    - destruct Hm, Hm'. congruence.
    - destruct Hm as (_ & [E1|(n & E1)]), Hm' as (_ & [E2|(n' & E2)]); congruence. }
  rewrite Em in Hc'. unfold pe_paths, api_paths in Hp. destruct (normalize (pe_cx e) (pe_name e) x None) as [p|] eqn:En; [|discriminate]. cbn [rbind] in Hp.
  destruct (normalize_shape _ _ _ _ _ En) as (mx & Hx & Hcx & Hlx & _).
  match type of Hp with (let! _ := ?q in _) = _ => destruct q as [u|] eqn:Ef; [|discriminate] end. cbn [rbind] in Hp.
  assert (Emx : mx = m).
  { unfold ensure_is_fitted in Ef. rewrite <- Ho in Ef. destruct (obj_of_fields (S:=R) (P:=P) perp_stored (@perp_erased NM V) t0) as (_ & _ & Hd & _).
    change (obj_of perp_stored perp_erased t0) with (perp_obj t0) in Hd.
    destruct (is_fitted (perp_obj t0)); [|discriminate]. rewrite Hd, Hnd, Hc' in Ef. cbn in Ef. rewrite Hcx in Ef.
    destruct (Nat.eqb mx m) eqn:E1; [apply Nat.eqb_eq in E1; auto|]. destruct (Nat.eqb m mx) eqn:E3; [apply Nat.eqb_eq in E3; auto|]. cbn in Ef. discriminate. }
  rewrite Emx in Hx. split; [exact Hx|].
  unfold perp_obj in Hp. rewrite (opaths_of _ _ _ perp_law) in Hp. injection Hp as <-. split.
  - rewrite update_paths_length, repeat_length. exact Hlx.
  - assert (HF : Forall (Forall (fun q : nat * NM => fst q < m /\ nth_error (documented_names (pe_name e) a m) (fst q) = Some (snd q)))
      (update_paths (pe_left e (fst p)) (pe_right e (fst p)) (fun d (_ : bool) => (sd_dim d, sd_name d)) t (seq 0 (len (fst p))) (seq 0 (len (fst p))) (repeat [] (len (fst p))))).
    { apply (update_all _ _ _ (fun d : pdesc NM V => sd_dim d < m /\ nth_error (documented_names (pe_name e) a m) (sd_dim d) = Some (sd_name d))).
      - intros d b Hd. exact Hd.
      - clear -Ht. induction t as [i|i d x1 x2 c1 IH1 c2 IH2]; cbn in *; intuition.
      - apply Forall_forall. intros l Hl. apply repeat_spec in Hl. subst l. constructor. }
    intros path dim nm Hin Hin'. rewrite Forall_forall in HF. apply HF in Hin. rewrite Forall_forall in Hin. apply (Hin (dim, nm) Hin').
Qed.

Lemma pe_fit_shape (e : perp_est E A V Y P NM) a s :
  (exists m, query_matrix (with_dtype F64 (fa_X a)) m /\ query_rows (fa_X a) = len (squeeze (fa_y a))) \/ exists ex, pe_fit e a s = ([], Some ex).
Proof.
  destruct (pe_validate e (at_prior (oattrs s)) a) as [v|ex] eqn:Ev; [left|right; exists ex; apply pe_invalid; exact Ev].
  destruct (validate_shape _ _ _ _ _ _ _ _ Ev) as (m & H1 & _ & _ & H2 & _). exists m. auto.
Qed.
Lemma he_fit_shape (e : hyper_est E A W C J Q Y P NM) cands a s :
  (exists m, query_matrix (with_dtype F64 (fa_X a)) m /\ query_rows (fa_X a) = len (squeeze (fa_y a))) \/ exists ex, he_fit e (cands, a) s = ([], Some ex).
Proof.
  destruct (he_validate e (at_prior (oattrs s)) a) as [v|ex] eqn:Ev; [left|right; exists ex; apply he_invalid; exact Ev].
  destruct (validate_shape _ _ _ _ _ _ _ _ Ev) as (m & H1 & _ & _ & H2 & _). exists m. auto.
Qed.
(** A query that is no matrix raises; ValueError if it has three or more axes and a numeric dtype. *)
Lemma pe_query_shape {O St} (e : perp_est E A V Y P NM) (val : option P -> P -> O) init (step : pdesc NM V -> bool -> St) o x :
  (forall m, ~ query_matrix (with_dtype F64 x) m) ->
  (exists ex, pe_query e val init o x = Err ex /\ pe_paths e step o x = Err ex) /\
  (2 < axes x -> supported (query_dtype x) = true -> pe_query e val init o x = Err ValueError /\ pe_paths e step o x = Err ValueError).
Proof.
  intros H. unfold pe_query, pe_paths, api_query, api_paths. split.
  - destruct (normalize_no_matrix (pe_cx e) (pe_name e) x None H) as (ex & Eq). exists ex. rewrite Eq. auto.
  - intros Hd Ht. rewrite (normalize_deep (pe_cx e) (pe_name e) x None); auto. destruct x; auto.
Qed.
Lemma he_query_shape {O} (e : hyper_est E A W C J Q Y P NM) (val : option P -> P -> O) init o x :
  (forall m, ~ query_matrix (with_dtype F64 x) m) ->
  (exists ex, he_query e val init o x = Err ex) /\
  (2 < axes x -> supported (query_dtype x) = true -> he_query e val init o x = Err ValueError).
Proof.
  intros H. unfold he_query, api_query. split.
  - destruct (normalize_no_matrix (he_cx e) (he_name e) x None H) as (ex & Eq). exists ex. rewrite Eq. auto.
  - intros Hd Ht. rewrite (normalize_deep (he_cx e) (he_name e) x None); auto. destruct x; auto.
Qed.
(** Query frames: the column names do not matter. *)
Lemma pe_query_frame {O St} (e : perp_est E A V Y P NM) (val : option P -> P -> O) init (step : pdesc NM V -> bool -> St) o a cs n m : a_shape a = [n; m] ->
  pe_query e val init o (XFrame a cs) = pe_query e val init o (XArray a) /\ pe_paths e step o (XFrame a cs) = pe_paths e step o (XArray a).
Proof.
  intros Hs. unfold pe_query, pe_paths, api_query, api_paths. split.
  - set (k := fun b : arr A => let! _ := ensure_is_fitted o (Some (cols b)) in
      opredict perp_klass (pe_left e b) (pe_right e b) val o (seq 0 (len b)) (repeat init (len b))).
    refine (eq_trans (bind_fst _ k) (eq_trans _ (eq_sym (bind_fst _ k)))). rewrite (normalize_frame _ _ a cs n m Hs). reflexivity.
  - set (k := fun b : arr A => let! _ := ensure_is_fitted o (Some (cols b)) in
      opaths perp_klass (pe_left e b) (pe_right e b) step o (seq 0 (len b)) (seq 0 (len b)) (repeat [] (len b))).
    refine (eq_trans (bind_fst _ k) (eq_trans _ (eq_sym (bind_fst _ k)))). rewrite (normalize_frame _ _ a cs n m Hs). reflexivity.
Qed.
Lemma he_query_frame {O} (e : hyper_est E A W C J Q Y P NM) (val : option P -> P -> O) init o a cs n m : a_shape a = [n; m] ->
  he_query e val init o (XFrame a cs) = he_query e val init o (XArray a).
Proof.
  intros Hs. unfold he_query, api_query.
  set (k := fun b : arr A => let! _ := ensure_is_fitted o (Some (cols b)) in
      opredict hyper_klass (he_back e b) (he_front e b) val o (seq 0 (len b)) (repeat init (len b))).
  refine (eq_trans (bind_fst _ k) (eq_trans _ (eq_sym (bind_fst _ k)))). rewrite (normalize_frame _ _ a cs n m Hs). reflexivity.
Qed.
(** A single row is read as a matrix of one row, a scalar as a matrix of one entry, a list as the array made of it. *)
Lemma pe_query_row {O St} (e : perp_est E A V Y P NM) (val : option P -> P -> O) init (step : pdesc NM V -> bool -> St) o t m data v :
  (pe_query e val init o (XArray (mkArr [m] t data)) = pe_query e val init o (XArray (mkArr [1; m] t data)) /\
   pe_paths e step o (XArray (mkArr [m] t data)) = pe_paths e step o (XArray (mkArr [1; m] t data))) /\
  (pe_query e val init o (XScalar t v) = pe_query e val init o (XArray (mkArr [1; 1] t [v])) /\
   pe_paths e step o (XScalar t v) = pe_paths e step o (XArray (mkArr [1; 1] t [v]))) /\
  (forall z, pe_query e val init o (XList z) = pe_query e val init o (XArray z) /\ pe_paths e step o (XList z) = pe_paths e step o (XArray z)).
Proof. repeat split; reflexivity. Qed.
Lemma he_query_row {O} (e : hyper_est E A W C J Q Y P NM) (val : option P -> P -> O) init o t m data v :
  he_query e val init o (XArray (mkArr [m] t data)) = he_query e val init o (XArray (mkArr [1; m] t data)) /\
  he_query e val init o (XScalar t v) = he_query e val init o (XArray (mkArr [1; 1] t [v])) /\
  (forall z, he_query e val init o (XList z) = he_query e val init o (XArray z)).
Proof. repeat split; reflexivity. Qed.
(** A fit reads a frame without given names as the array of its values with the names of its columns. *)
Lemma pe_fit_frame (e : perp_est E A V Y P NM) a cs y n m : a_shape a = [n; m] ->
  pe_fit e (mkArgs (XFrame a cs) y None) = pe_fit e (mkArgs (XArray a) y (Some cs)).
Proof.
  intros Hs. unfold pe_fit, api_fit, validate, normalize. cbn [fa_X fa_y fa_names].
  replace (Nat.eqb (ndim a) 1) with false by (unfold ndim; rewrite Hs; reflexivity). reflexivity.
Qed.
(** Names of columns that are not split are not read. *)
Lemma pe_fit_names (e : perp_est E A V Y P NM) a (s : obj (psplit NM V) R P) v names t m : pe_prune e = false -> pe_validate e (at_prior (oattrs s)) a = Ok v ->
  pe_tree e v names (at_level (oattrs s)) (at_prior (oattrs s)) = Ok t -> tree_named (v_names v) m t -> outcome_of (pe_fit e a) s = Ok (perp_obj t).
Proof.
  intros Hp Hv Ht Hn. unfold pe_fit. rewrite perp_outcome. unfold pe_validate in Hv. rewrite Hv, Hp. cbn [rbind].
  unfold pe_tree, pfit_root in *. rewrite (pfit_names _ _ _ _ _ (v_names v) _ _ _ _ _ m Ht Hn). reflexivity.
Qed.
(** Numeric matrices with an acceptable target of another length: ValueError. *)
Lemma rows_validate (cx : cast E A) (cy : cast E Y) (x_name : nat -> NM) check x y names m : query_matrix x m -> supported (a_dtype y) = true ->
  check (mkArr (a_shape (squeeze y)) (a_dtype y) (map (as_is cy) (a_data y))) = Ok tt -> query_rows x <> len (squeeze y) ->
  validate cx cy x_name check x y names = Err ValueError.
Proof.
  intros Hx Ht Hc Hr. rewrite reads_target by auto. rewrite Hc. cbn [rbind]. destruct (normalize_query cx x_name x m names Hx) as (l & ->). cbn [rbind fst snd].
  change (len (query_arr cx x m)) with (query_rows x). apply Nat.eqb_neq in Hr. rewrite Hr. reflexivity.
Qed.
Variable lab : Y -> fl.
Variable n_classes : P -> nat.
Lemma good_target_checks (cy : cast E Y) check pa (y : arr E) : good_target lab n_classes cy check pa y -> check pa (mkArr (a_shape (squeeze y)) (a_dtype y) (map (as_is cy) (a_data y))) = Ok tt.
Proof.
  intros (Ht & [(Hc & Hd)|(Hc & p & -> & Hk & Hr)]); rewrite Hc.
  - unfold reg_check_target, read_labels, ndim in *. cbn [a_shape]. rewrite Hd. reflexivity.
  - match goal with |- clf_check_target n_classes (Some p) ?z = _ => destruct (clf_target_exact n_classes p z Hk) as [H1 _] end. apply H1.
    unfold right_target, read_labels, ndim in *. cbn [a_shape a_data]. rewrite map_map. exact Hr.
Qed.
Lemma pe_rows (e : perp_est E A V Y P NM) a s m : query_matrix (fa_X a) m -> good_target lab n_classes (pe_cy e) (pe_check e) (at_prior (oattrs s)) (fa_y a) ->
  query_rows (fa_X a) <> len (squeeze (fa_y a)) -> pe_fit e a s = ([], Some ValueError).
Proof. intros Hx Hg Hr. apply pe_invalid. eapply rows_validate; eauto; [apply Hg|apply good_target_checks; auto]. Qed.
Lemma he_rows (e : hyper_est E A W C J Q Y P NM) cands a s m : query_matrix (fa_X a) m -> good_target lab n_classes (he_cy e) (he_check e) (at_prior (oattrs s)) (fa_y a) ->
  query_rows (fa_X a) <> len (squeeze (fa_y a)) -> he_fit e (cands, a) s = ([], Some ValueError).
Proof. intros Hx Hg Hr. apply he_invalid. eapply rows_validate; eauto; [apply Hg|apply good_target_checks; auto]. Qed.
(** Regression trees reject targets that are not one-dimensional. *)
Lemma flat_validate (cx : cast E A) (cy : cast E Y) (x_name : nat -> NM) (check : option P -> arr Y -> res unit) pa x y names : reg_checks lab check ->
  supported (a_dtype y) = true -> ndim (squeeze y) <> 1 -> validate cx cy x_name (check pa) x y names = Err ValueError.
Proof.
  intros Hc Ht Hd. rewrite reads_target by auto. rewrite Hc. unfold reg_check_target, read_labels, ndim in *. cbn [a_shape].
  apply Nat.eqb_neq in Hd. rewrite Hd. reflexivity.
Qed.
Lemma pe_target (e : perp_est E A V Y P NM) a s : reg_checks lab (pe_check e) -> supported (a_dtype (fa_y a)) = true -> ndim (squeeze (fa_y a)) <> 1 ->
  pe_fit e a s = ([], Some ValueError).
Proof. intros Hc Ht Hd. apply pe_invalid. apply flat_validate; auto. Qed.
Lemma he_target (e : hyper_est E A W C J Q Y P NM) cands a s : reg_checks lab (he_check e) -> supported (a_dtype (fa_y a)) = true -> ndim (squeeze (fa_y a)) <> 1 ->
  he_fit e (cands, a) s = ([], Some ValueError).
Proof. intros Hc Ht Hd. apply he_invalid. apply (flat_validate (he_cx e) (he_cy e) (he_name e) (he_check e)); auto. Qed.
End Est.

Lemma raised_outcome {U S P} (m : @M U S P) s e o : raised m s e o -> outcome_of m s = Err e.
Proof. intros (H & _). unfold outcome_of. destruct (m s) as [t x]. cbn [snd] in H. subst x. reflexivity. Qed.

(** ** Witnesses *)
Section Strings.
Import String.
Open Scope string_scope.
Definition w_frame : fit_args R string :=
  mkArgs (XFrame (mkArr [8; 2] F64 (map IZR w_flat)) ["a"; "b"]) (mkArr [8] I64 (map INR [0;0;1;1;0;0;1;1])) None.
Definition frame_ab : xin R string := XFrame (mkArr [1; 2] F64 (map IZR [0;1]%Z)) ["a"; "b"].
Definition frame_ba : xin R string := XFrame (mkArr [1; 2] F64 (map IZR [1;0]%Z)) ["b"; "a"].
Lemma frames_same : same_table frame_ab frame_ba 1 2.
Proof.
  split; [|split; [|split; [|split]]]; try reflexivity; try (split; [reflexivity|exists 1; reflexivity]).
  intros i nm v Hi. assert (i = 0) as -> by lia. cbn. split; intros (j & Hj & H1 & H2); destruct j as [|[|j]]; try lia; cbn in H1, H2;
    injection H1 as <-; injection H2 as <-; [exists 1|exists 0|exists 1|exists 0]; repeat split; auto.
Qed.
(** The row (a = 0, b = 1) is put into class 0, the same row with the columns swapped into class 1. *)
Lemma frame_order : exists h a o r1 r2, outcome_of (pe_fit (est h) a) (pe_new (h_prior h)) = Ok o /\
  documented_names x_names a 2 = ["a"; "b"] /\ same_table frame_ab frame_ba 1 2 /\
  pe_query (est h) (fun _ p => INR (clf_predict_leaf p)) 0%R o frame_ab = Ok r1 /\
  pe_query (est h) (fun _ p => INR (clf_predict_leaf p)) 0%R o frame_ba = Ok r2 /\ r1 <> r2.
Proof.
  pose proof w_tree1_run as E1. unfold w_tree1 in E1. match type of E1 with _ = Ok ?u => set (v1 := u) in E1 end.
  destruct (model_run 2 (9 # 10) 0 false [1;1]%Z 8 2 w_flat [0;0;1;1;0;0;1;1] ["a"; "b"] v1) as (t1 & Ht1 & Hd1 & Hfit1); auto; try lia; [split; reflexivity|].
  assert (Hi : i_n_dim (info t1) = Some 2).
  { clear -Hd1. unfold v1 in Hd1. destruct t1 as [|i d u1 u2 c1 c2]; try discriminate Hd1. cbn [drop_scores tree_R] in Hd1. injection Hd1 as Ei _ _ _. subst i. reflexivity. }
  exists (w_h false), w_frame, (perp_obj t1). do 2 eexists. split; [|split; [reflexivity|split; [exact frames_same|split; [|split]]]].
  - unfold w_frame. rewrite (pe_fit_frame (est (w_h false)) (mkArr [8; 2] F64 (map IZR w_flat)) _ _ 8 2 eq_refl). apply Hfit1. constructor.
  - exact (eq_trans (proj1 (pe_query_frame (est (w_h false)) _ _ perp_step (perp_obj t1) (mkArr [1; 2] F64 (map IZR [0;1]%Z)) _ 1 2 eq_refl)) (zquery_predict (w_h false) t1 _ 2 [0;1]%Z Hd1 Hi)).
  - exact (eq_trans (proj1 (pe_query_frame (est (w_h false)) _ _ perp_step (perp_obj t1) (mkArr [1; 2] F64 (map IZR [1;0]%Z)) _ 1 2 eq_refl)) (zquery_predict (w_h false) t1 _ 2 [1;0]%Z Hd1 Hi)).
  - unfold v1. match goal with |- map INR ?a <> map INR ?b => let x := eval vm_compute in a in let y := eval vm_compute in b in change (map INR x <> map INR y) end.
    cbn. intros H. injection H as H. lra.
Qed.
(** Two columns: one name is enough if only the first column is split; three names are accepted, too. *)
Definition w_short : fit_args R string := zargs 8 2 w_flat [0;0;1;1;0;0;1;1] ["a"].
Definition w_long : fit_args R string := zargs 8 2 w_flat [0;0;1;1;0;0;1;1] ["a"; "b"; "c"].
Lemma enough_names t names : clf_fit sort_R (w_h false) (real_set (flat_set 8 2 w_flat [0;0;1;1;0;0;1;1] ["a"; "b"])) = Ok t -> tree_named names 1 t ->
  outcome_of (pe_fit (est (w_h false)) (zargs 8 2 w_flat [0;0;1;1;0;0;1;1] names)) (pe_new (Some (map IZR [1;1]%Z))) = Ok (perp_obj t).
Proof.
  intros Ht Hn. assert (Hv : pe_validate (est (w_h false)) (Some (map IZR [1;1]%Z)) (zargs 8 2 w_flat [0;0;1;1;0;0;1;1] names) = Ok (zvalid 8 2 w_flat [0;0;1;1;0;0;1;1] names))
    by (apply (zvalid_ok 2); reflexivity).
  exact (pe_fit_names (est (w_h false)) _ (pe_new (Some (map IZR [1;1]%Z))) _ ["a"; "b"] t 1 eq_refl Hv (w_grown false 8 2 w_flat [0;0;1;1;0;0;1;1] ["a"; "b"] names t Ht) Hn).
Qed.
Lemma unnamed_column i d u1 u2 c1 c2 names : sd_dim d = 1 ->
  clf_fit sort_R (w_h false) (real_set (flat_set 8 2 w_flat [0;1;0;1;0;1;0;1] ["a"; "b"])) = Ok (Split i d u1 u2 c1 c2) -> List.length names = 1 ->
  outcome_of (pe_fit (est (w_h false)) (w_args2 names)) (pe_new (Some (map IZR [1;1]%Z))) = Err IndexError.
Proof.
  intros Hd Ht Hn. eapply raised_outcome. eapply (pe_short_names (est (w_h false)) (w_args2 names) _ (zvalid 8 2 w_flat [0;1;0;1;0;1;0;1] names) ["a"; "b"] i d u1 u2 c1 c2).
  - cbn [pe_new new_obj oattrs at_prior at_level]. apply (zvalid_ok 2); reflexivity.
  - cbn [pe_new new_obj oattrs at_prior at_level]. apply w_grown. exact Ht.
  - cbn [zvalid v_names]. lia.
Qed.
Lemma wrong_names : exists h, (exists o, outcome_of (pe_fit (est h) w_short) (pe_new (h_prior h)) = Ok o) /\
  (exists o, outcome_of (pe_fit (est h) w_long) (pe_new (h_prior h)) = Ok o) /\
  exists o, outcome_of (pe_fit (est h) (w_args2 ["a"])) (pe_new (h_prior h)) = Err IndexError /\ outcome_of (pe_fit (est h) (w_args2 ["a"; "b"])) (pe_new (h_prior h)) = Ok o.
Proof.
  pose proof w_tree1_run as E1. unfold w_tree1 in E1. match type of E1 with _ = Ok ?u => set (v1 := u) in E1 end.
  pose proof w_tree2_run as E2. unfold w_tree2 in E2. match type of E2 with _ = Ok ?u => set (v2 := u) in E2 end.
  destruct (model_run 2 (9 # 10) 0 false [1;1]%Z 8 2 w_flat [0;0;1;1;0;0;1;1] ["a"; "b"] v1) as (t1 & Ht1 & Hd1 & _); auto; try lia; [split; reflexivity|].
  destruct (model_run 2 (9 # 10) 0 false [1;1]%Z 8 2 w_flat [0;1;0;1;0;1;0;1] ["a"; "b"] v2) as (t2 & Ht2 & Hd2 & Hfit2); auto; try lia; [split; reflexivity|].
  clear E1 E2. unfold v1, v2 in *. clear v1 v2.
  destruct t1 as [|i d u1 u2 [i1|] [i2|]]; try discriminate Hd1. cbn [drop_scores tree_R] in Hd1. injection Hd1 as Ei Ed Ei1 Ei2.
  destruct t2 as [|j e w1 w2 c1 c2]; try discriminate Hd2.
  pose proof Hd2 as Hd2'. cbn [drop_scores tree_R] in Hd2'. injection Hd2' as _ Ee _ _.
  set (t1 := Split i d u1 u2 (Leaf i1) (Leaf i2)) in *.
  exists (w_h false).
  change (pe_new (h_prior (w_h false))) with (pe_new (NM := string) (V := R) (Some (map IZR [1;1]%Z))). split; [|split].
  - exists (perp_obj t1). apply enough_names; [exact Ht1|]. unfold t1. cbn [tree_named]. rewrite Ed. repeat split; auto.
  - exists (perp_obj t1). apply enough_names; [exact Ht1|]. unfold t1. cbn [tree_named]. rewrite Ed. repeat split; auto.
  - exists (perp_obj (Split j e w1 w2 c1 c2)). split; [|apply Hfit2; constructor].
    apply (unnamed_column j e w1 w2 c1 c2); auto. rewrite Ee. reflexivity.
Qed.
End Strings.

(** Hypotheses of the theorems about shapes. *)
Definition deep : xin R string := XArray (mkArr [2; 1; 3] F64 [1; 2; 3; 4; 5; 6]%R).
Definition few_labels : fit_args R string := mkArgs (XArray (mkArr [3; 1] F64 [1; 2; 3]%R)) (mkArr [2] I64 [0; 1]%R) None.
Lemma shape_case : (forall m, ~ query_matrix (with_dtype F64 deep) m) /\ 2 < axes deep /\ supported (query_dtype deep) = true /\
  query_matrix (fa_X few_labels) 1 /\ query_rows (fa_X few_labels) <> len (squeeze (fa_y few_labels)) /\
  good_target (Some : R -> fl) (@length R) id_cast (pe_check (est (w_h true))) (Some [1; 1]%R) (fa_y few_labels).
Proof.
  split; [intros m (_ & [H|(n & H)]); discriminate|]. split; [cbn; lia|]. split; [reflexivity|]. split; [split; [reflexivity|right; exists 3; reflexivity]|].
  split; [cbn; lia|]. split; [reflexivity|]. right. split; [apply clf_checks_est|]. exists [1; 1]%R. split; [reflexivity|]. split; [cbn; lia|].
  split; [reflexivity|]. intros v. cbn. split.
  - intros [<-|[<-|[]]]; [exists 0|exists 1]; split; auto.
  - intros (k & Hk & ->). destruct k as [|[|k]]; [left|right; left|lia]; reflexivity.
Qed.
