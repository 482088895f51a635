(** * ReadProofs: reading a printed tree gives back the tree. *)
From Coq Require Decimal DecimalString Ascii DecimalNat.
From Coq Require Import String.
From Verif Require Import Prelude Tree Spec Str StrSpec StrProofs ReadSpec.

Lemma skip_app p s : skip p (p ++ s) = Some s.
Proof. induction p as [|a p IH]; cbn; auto. rewrite N.eqb_refl. auto. Qed.
Lemma skip_some p s r : skip p s = Some r -> s = p ++ r.
Proof.
  revert s. induction p as [|a p IH]; intros [|b s]; cbn; try congruence. destruct (N.eqb_spec a b) as [->|]; [|discriminate].
  intros H. f_equal. auto.
Qed.
Lemma cut_app c s r : ~ In c s -> cut c (s ++ c :: r) = Some (s, r).
Proof.
  induction s as [|a s IH]; cbn; intros H; [rewrite N.eqb_refl; auto|]. destruct (N.eqb_spec a c); [exfalso; auto|]. rewrite IH; auto.
Qed.
Lemma cut_last_app c s r : ~ In c r -> cut_last c (s ++ c :: r) = Some (s, r).
Proof.
  intros H. unfold cut_last. rewrite rev_app_distr. cbn [rev]. rewrite <- app_assoc. cbn [app].
  rewrite cut_app by (rewrite <- in_rev; auto). rewrite !rev_involutive. auto.
Qed.

(** Decimal numbers. *)
Lemma fold_of_uint u : forall acc,
  fold_left (fun n c => 10 * n + N.to_nat (c - 48)) (lit (DecimalString.NilEmpty.string_of_uint u)) acc = Nat.of_uint_acc u acc.
Proof.
  assert (E : forall (s : String.string) (a : Ascii.ascii) acc, fold_left (fun n c => 10 * n + N.to_nat (c - 48)) (lit (String.String a s)) acc =
    fold_left (fun n c => 10 * n + N.to_nat (c - 48)) (lit s) (10 * acc + N.to_nat (Ascii.N_of_ascii a - 48))) by reflexivity.
  induction u; intros acc; cbn [DecimalString.NilEmpty.string_of_uint]; [reflexivity|..]; rewrite E, IHu; cbn [Nat.of_uint_acc]; rewrite Nat.tail_mul_spec;
    f_equal; match goal with |- context [N.to_nat ?x] => let v := eval vm_compute in (N.to_nat x) in change (N.to_nat x) with v end; cbn [Nat.mul]; lia.
Qed.
Lemma read_nat_dec n : read_nat (dec n) = n.
Proof.
  unfold read_nat, dec. rewrite fold_of_uint. change (Nat.of_uint (Nat.to_uint n) = n). apply DecimalNat.Unsigned.of_to.
Qed.
Lemma dec_no c n : (forall a, In a (lit "0123456789"%string) -> a <> c) -> ~ In c (dec n).
Proof.
  unfold dec, lit. generalize (Nat.to_uint n). intros u H Hin. apply in_map_iff in Hin as (a & E & Hin).
  induction u; cbn in Hin; [contradiction|destruct Hin as [<-|Hin]; [|auto]..]; apply (H c); auto; rewrite <- E; cbn; tauto.
Qed.

(** The position of a line can be read off its beginning. *)
Lemma drawing_cons b b' r : drawing (b :: b' :: r) = (SP :: (if b then BAR else [SP; SP])) ++ drawing (b' :: r).
Proof. reflexivity. Qed.
Lemma drawing_prefix u : forall w x y, u <> [] -> w <> [] -> drawing w ++ x = drawing u ++ y -> u = w.
Proof.
  induction u as [|b u IH]; intros w x y Hu Hw E; [congruence|]. destruct w as [|c w]; [congruence|].
  destruct u as [|b' u]; destruct w as [|c' w].
  - destruct b, c; cbn in E; try reflexivity; discriminate E.
  - rewrite drawing_cons in E. destruct b, c; cbn in E; try reflexivity; discriminate E.
  - rewrite drawing_cons in E. destruct b, c; cbn in E; try reflexivity; discriminate E.
  - rewrite !drawing_cons, <- !app_assoc in E. assert (b = c /\ drawing (c' :: w) ++ x = drawing (b' :: u) ++ y) as [-> E'].
    { destruct b, c; cbn [app] in E; try (injection E as E; split; auto; fail); cbn in E; try reflexivity; discriminate E. }
    f_equal. apply (IH _ x y); congruence.
Qed.

Section R.
Context {D S P : Type}.
Variable prefix : D -> bool -> text.
Variable split_text : D -> text.
Variable pred_text : P -> text.
Variable mean_text : option (P -> text).
Variable f1 f2 : D -> text.
Variable read_split : text -> option (text * text).
Variable side : text * text -> bool -> text.
Notation classes := (match mean_text with Some _ => true | None => false end).
Notation read := (read read_split side classes).
Notation line := (line_of (S := S) prefix split_text (leaf_line pred_text mean_text)).
Hypothesis Hside : forall d b, prefix d b = side (f1 d, f2 d) b.

Lemma read_leaf_line i : ~ In COMMA (pred_text (i_post i)) ->
  read_leaf classes (leaf_line pred_text mean_text i) = Some (SLeaf (pred_text (i_post i)) (i_n_data i) (option_map (fun f => f (i_post i)) mean_text)).
Proof.
  intros Hp. unfold read_leaf, leaf_line. rewrite skip_app. cbn [bind].
  change (lit ", n="%string) with (COMMA :: lit " n="%string). rewrite <- app_comm_cons, cut_app by auto. cbn [bind]. rewrite skip_app. cbn [bind].
  destruct mean_text as [f|].
  - change (lit ", p(y)="%string) with (COMMA :: lit " p(y)="%string). rewrite <- app_comm_cons, cut_app.
    2:{ apply dec_no. cbn. intros c Hc Ec. subst c. repeat (destruct Hc as [Hc|Hc]; [discriminate Hc|]). exact Hc. }
    cbn [bind]. rewrite skip_app. cbn [bind option_map]. rewrite read_nat_dec. auto.
  - rewrite app_nil_r, read_nat_dec. auto.
Qed.

(** The lines that follow a node at position [turns] do not belong to it. *)
Definition follows (turns : list bool) (rest : list text) : Prop :=
  match rest with [] => True | l :: _ => exists w x, l = drawing w ++ x /\ w <> [] /\ forall s, w <> turns ++ s end.

Lemma follows_skip turns rest b l r : follows turns rest -> rest = l :: r -> skip (drawing (turns ++ [b])) l = None.
Proof.
  intros Hf ->. destruct Hf as (w & x & -> & Hw & Hn). destruct (skip _ _) as [y|] eqn:E; auto. apply skip_some in E.
  apply drawing_prefix in E; auto; [|destruct turns; discriminate]. exfalso. apply (Hn [b]). auto.
Qed.

Lemma dfs_cons (t : tree D S P) turns parent : exists l, dfs t turns parent = (turns, parent, t) :: l.
Proof. destruct t; cbn; eauto. Qed.

Lemma read_node (t : tree D S P) : forall fuel turns (parent : option D) rest,
  (forall d, In d (descs t) -> read_split (split_text d) = Some (f1 d, f2 d)) ->
  (forall i, In i (leaves t) -> ~ In COMMA (pred_text (i_post i))) ->
  size t <= fuel -> follows turns rest ->
  read fuel turns (option_map (fun d => (f1 d, f2 d)) parent) (map line (dfs t turns parent) ++ rest) = Some (shows f1 f2 pred_text mean_text t, rest).
Proof.
  induction t as [i|i d a b c1 IH1 c2 IH2]; intros fuel turns parent rest Hs Hl Hf Hr; (destruct fuel as [|fuel]; [cbn in Hf; lia|]).
  - cbn [dfs map app ReadSpec.read]. unfold line_of at 1. rewrite skip_app. cbn [bind].
    replace (match option_map (fun d => (f1 d, f2 d)) parent with Some x => side x (last turns false) | None => [] end)
      with (match parent with Some d => prefix d (last turns false) | None => [] end) by (destruct parent; cbn; auto).
    rewrite skip_app. cbn [bind]. rewrite read_leaf_line by (apply Hl; cbn; auto). cbn [bind shows].
    destruct rest as [|l r]; auto. rewrite (follows_skip turns (l :: r) true l r); auto.
  - cbn [dfs map app ReadSpec.read]. rewrite map_app, <- app_assoc. unfold line_of at 1. rewrite skip_app. cbn [bind].
    replace (match option_map (fun d => (f1 d, f2 d)) parent with Some x => side x (last turns false) | None => [] end)
      with (match parent with Some d => prefix d (last turns false) | None => [] end) by (destruct parent; cbn; auto).
    rewrite skip_app. cbn [bind].
    destruct (dfs_cons c1 (turns ++ [true]) (Some d)) as [l1 E1].
    destruct (map line (dfs c1 (turns ++ [true]) (Some d)) ++ map line (dfs c2 (turns ++ [false]) (Some d)) ++ rest) as [|l2 r2] eqn:El;
      [rewrite E1 in El; discriminate|].
    assert (exists x, l2 = drawing (turns ++ [true]) ++ x) as [x Ex].
    { rewrite E1 in El. cbn [map app] in El. injection El as <- _. unfold line_of. eauto. }
    rewrite Ex, skip_app, <- Ex. rewrite Hs by (cbn; auto). cbn [bind]. rewrite <- El.
    cbn [size] in Hf.
    change (Some (f1 d, f2 d)) with (option_map (fun d => (f1 d, f2 d)) (Some d)).
    rewrite IH1; [|intros; apply Hs; cbn; right; apply in_app_iff; auto|intros; apply Hl; cbn; apply in_app_iff; auto|lia|].
    2:{ destruct (dfs_cons c2 (turns ++ [false]) (Some d)) as [l3 E3]. rewrite E3. cbn [map app follows]. exists (turns ++ [false]). unfold line_of. eexists.
        split; [reflexivity|]. split; [destruct turns; discriminate|]. intros s H. rewrite <- app_assoc in H. apply app_inv_head in H. discriminate. }
    cbn [bind].
    rewrite IH2; [|intros; apply Hs; cbn; right; apply in_app_iff; auto|intros; apply Hl; cbn; apply in_app_iff; auto|lia|].
    2:{ destruct rest as [|l r]; auto. destruct Hr as (w & y & -> & Hw & Hn). exists w, y. split; auto. split; auto. intros s ->. apply (Hn (false :: s)).
        rewrite <- app_assoc. auto. }
    cbn [bind shows fst snd]. auto.
Qed.

Lemma read_printed (t : tree D S P) :
  (forall d, In d (descs t) -> read_split (split_text d) = Some (f1 d, f2 d)) ->
  (forall d b, In d (descs t) -> one_line (prefix d b) /\ one_line (split_text d)) ->
  (forall i, In i (leaves t) -> one_line (pred_text (i_post i)) /\ ~ In COMMA (pred_text (i_post i))) ->
  (forall f i, mean_text = Some f -> In i (leaves t) -> one_line (f (i_post i))) ->
  read_tree read_split side classes (str_model prefix split_text pred_text mean_text (Some t)) = Some (shows f1 f2 pred_text mean_text t).
Proof.
  intros H1 H2 H3 H4. unfold read_tree. destruct (model_one_line prefix split_text pred_text mean_text t) as [E El]; auto.
  { intros i Hi. apply H3, Hi. }
  cbv zeta in E, El. assert (lines (str_model prefix split_text pred_text mean_text (Some t)) = map line (dfs t [] None)) as E' by exact E. rewrite El, E'. rewrite <- (app_nil_r (map _ _)).
  pose proof (read_node t (size t) [] None [] H1 (fun i Hi => proj2 (H3 i Hi)) (le_n _) I) as H. cbn [option_map] in H. rewrite H. auto.
Qed.
End R.

Lemma no_NL s : forallb (fun c => negb (N.eqb c NL)) s = true -> one_line s.
Proof. intros H Hin. rewrite forallb_forall in H. apply H in Hin. discriminate. Qed.

(** Perpendicular trees. *)
Lemma read_perp {D S P} name val pred (mean : option (P -> text)) (t : tree D S P) :
  (forall d, In d (descs t) -> one_line (name d) /\ one_line (val d) /\ ~ In EQ (val d)) ->
  (forall i, In i (leaves t) -> one_line (pred (i_post i)) /\ ~ In COMMA (pred (i_post i))) ->
  (forall f i, mean = Some f -> In i (leaves t) -> one_line (f (i_post i))) ->
  read_tree read_perp_split perp_side (match mean with Some _ => true | None => false end)
    (str_model (perp_prefix val) (perp_split name val) pred mean (Some t)) = Some (shows name val pred mean t).
Proof.
  intros H1 H2 H3. apply read_printed; auto.
  - intros d Hd. unfold read_perp_split, perp_split. change (lit "="%string) with [EQ]. cbn [app]. apply cut_last_app. apply H1, Hd.
  - intros d b Hd. destruct (H1 d Hd) as (A & B & _). split.
    + unfold perp_prefix. repeat apply one_line_app; auto; try (apply no_NL; reflexivity). destruct b; apply no_NL; reflexivity.
    + unfold perp_split. repeat apply one_line_app; auto; apply no_NL; reflexivity.
Qed.

(** Hyperplane trees. *)
Lemma read_hyper {D S P} origin normal pred (mean : option (P -> text)) (t : tree D S P) :
  (forall d, In d (descs t) -> one_line (origin d) /\ ~ In COMMA (origin d) /\ one_line (normal d)) ->
  (forall i, In i (leaves t) -> one_line (pred (i_post i)) /\ ~ In COMMA (pred (i_post i))) ->
  (forall f i, mean = Some f -> In i (leaves t) -> one_line (f (i_post i))) ->
  read_tree read_hyper_split hyper_side (match mean with Some _ => true | None => false end)
    (str_model hyper_prefix (hyper_split origin normal) pred mean (Some t)) = Some (shows origin normal pred mean t).
Proof.
  intros H1 H2 H3. apply read_printed; auto.
  - intros d b. destruct b; reflexivity.
  - intros d Hd. unfold read_hyper_split, hyper_split. rewrite skip_app. cbn [bind]. change (lit ", normal="%string) with (COMMA :: lit " normal="%string).
    rewrite <- app_comm_cons, cut_app by (apply H1, Hd). cbn [bind]. rewrite skip_app. cbn [bind]. change (lit ")"%string) with [41%N].
    rewrite cut_last_app by (intros []). auto.
  - intros d b Hd. destruct (H1 d Hd) as (A & _ & B). split; [destruct b; apply no_NL; reflexivity|].
    unfold hyper_split. repeat apply one_line_app; auto; apply no_NL; reflexivity.
Qed.
