(** * StrProofs: proofs about printed trees. *)
From Verif Require Import Prelude Tree Spec Str StrSpec.
From Coq Require Decimal DecimalString Ascii.
From Coq Require String.

Lemma lines_one s : one_line s -> lines s = [s].
Proof.
  unfold one_line. induction s as [|c s IH]; simpl; auto. intros H.
  destruct (N.eqb_spec c NL) as [->|_]; [exfalso; auto|]. rewrite IH; auto.
Qed.
Lemma lines_cons s r : lines (s ++ NL :: r) = lines s ++ lines r.
Proof.
  induction s as [|c s IH]; simpl; auto. destruct (N.eqb c NL); simpl; [rewrite IH; auto|]. rewrite IH.
  destruct (lines s) eqn:E; simpl; auto. destruct s as [|c' s]; simpl in E; [discriminate|]. destruct (N.eqb c' NL); [discriminate|].
  destruct (lines s); discriminate.
Qed.
Lemma one_line_app a b : one_line a -> one_line b -> one_line (a ++ b).
Proof. unfold one_line. rewrite in_app_iff. tauto. Qed.
Lemma one_line_nil : one_line [].
Proof. intros []. Qed.

Lemma dec_one n : one_line (dec n).
Proof.
  unfold dec, lit. generalize (Nat.to_uint n). intros u. unfold one_line. rewrite in_map_iff. intros (a & E & Hin).
  induction u; simpl in Hin; [contradiction|destruct Hin as [<-|Hin]; [vm_compute in E; discriminate|auto]..].
Qed.

Lemma drawing_one turns : one_line (drawing turns).
Proof.
  induction turns as [|b r IH]; [apply one_line_nil|]. simpl. destruct r as [|b' r].
  - destruct b; intros H; repeat (destruct H as [H|H]; [discriminate|]); contradiction.
  - change (one_line ((SP :: (if b then BAR else [SP; SP])) ++ drawing (b' :: r))). apply one_line_app; auto.
    destruct b; intros H; repeat (destruct H as [H|H]; [discriminate|]); contradiction.
Qed.

(** The anchors of the code as a function of the turns. *)
Fixpoint anchors (turns : list bool) : list text :=
  match turns with
  | [] => []
  | [b] => [if b then VERT_RIGHT else DOWN_RIGHT]
  | b :: r => (if b then BAR else [SP; SP]) :: anchors r
  end.
Lemma anchors_drawing turns : anchor_str (anchors turns) = drawing turns.
Proof.
  unfold anchor_str. induction turns as [|b r IH]; auto. destruct r as [|b' r].
  - simpl. rewrite app_nil_r. destruct b; auto.
  - change (concat (map (fun a => SP :: a) ((if b then BAR else [SP; SP]) :: anchors (b' :: r))) =
      (SP :: (if b then BAR else [SP; SP])) ++ drawing (b' :: r)). cbn [map concat]. rewrite IH. auto.
Qed.
Lemma anchors_cons b r : r <> [] -> anchors (b :: r) = (if b then BAR else [SP; SP]) :: anchors r.
Proof. destruct r; [congruence|auto]. Qed.
Lemma anchors_snoc turns b b' : anchors ((turns ++ [b]) ++ [b']) =
  removelast (anchors (turns ++ [b])) ++ [if b then BAR else [SP; SP]; if b' then VERT_RIGHT else DOWN_RIGHT].
Proof.
  induction turns as [|c r IH].
  - simpl. auto.
  - rewrite <- !app_comm_cons. rewrite !anchors_cons by (destruct r; discriminate). rewrite IH.
    rewrite app_comm_cons. f_equal. simpl. destruct (anchors (r ++ [b])) eqn:E; auto. destruct r as [|? [|? ?]]; discriminate.
Qed.
Lemma anchors_nonempty turns b : anchors (turns ++ [b]) <> [].
Proof. destruct turns as [|c [|? ?]]; discriminate. Qed.

Section Q.
Context {D S P : Type}.
Variable prefix : D -> bool -> text.
Variable split_text : D -> text.
Variable pred_text : P -> text.
Variable mean_text : option (P -> text).
Notation body := (leaf_text pred_text mean_text).
Notation str_node := (str_node (S:=S) prefix split_text pred_text mean_text).

(** Position of a node as seen by the code. *)
Definition at_pos (turns : list bool) (parent : option (D * bool)) : Prop :=
  match parent with None => turns = [] | Some (_, b) => exists r, turns = r ++ [b] end.

Lemma child_anchor_pos turns (parent : option (D * bool)) (b' : bool) : at_pos turns parent ->
  child_anchor (anchors turns) (option_map snd parent) (if b' then VERT_RIGHT else DOWN_RIGHT) = anchors (turns ++ [b']).
Proof.
  destruct parent as [[d b]|]; simpl.
  - intros [r ->]. rewrite anchors_snoc. unfold child_anchor. pose proof (anchors_nonempty r b). destruct (anchors (r ++ [b])); [congruence|].
    destruct b; auto.
  - intros ->. auto.
Qed.

(** The printed text is the sequence of the node texts, each starting on a new line. *)
Lemma str_lines (t : tree D S P) : forall turns parent, at_pos turns parent ->
  lines (str_node t (anchors turns) parent) =
  flat_map (fun x => lines (line_of prefix split_text body x)) (dfs t turns (option_map fst parent)).
Proof.
  induction t as [i|i d a b c1 IH1 c2 IH2]; intros turns parent Hp.
  - cbn [dfs flat_map line_of Str.str_node]. rewrite app_nil_r. f_equal. destruct parent as [[d b]|]; cbn [option_map fst].
    + rewrite anchors_drawing, <- app_assoc. destruct Hp as [r ->]. rewrite last_last. auto.
    + simpl in Hp. subst. auto.
  - cbn [Str.str_node dfs flat_map]. rewrite (child_anchor_pos turns parent true Hp), (child_anchor_pos turns parent false Hp).
    cbn [app]. rewrite app_assoc. rewrite !lines_cons. rewrite flat_map_app. rewrite IH1, IH2 by (simpl; eauto).
    f_equal. f_equal. cbn [line_of]. destruct parent as [[d' b']|]; cbn [option_map fst].
    + rewrite anchors_drawing, <- app_assoc. destruct Hp as [r ->]. rewrite last_last. auto.
    + simpl in Hp. subst. auto.
Qed.

Lemma line_of_one (x : list bool * option D * tree D S P) :
  (forall d b, snd (fst x) = Some d -> one_line (prefix d b)) ->
  (forall i d a b c1 c2, snd x = Split i d a b c1 c2 -> one_line (split_text d)) ->
  (forall i, snd x = Leaf i -> one_line (body i)) -> one_line (line_of prefix split_text body x).
Proof.
  destruct x as [[turns parent] t]. intros H1 H2 H3. simpl in *. apply one_line_app; [apply drawing_one|]. apply one_line_app.
  - destruct parent; [auto|apply one_line_nil].
  - destruct t; eauto.
Qed.

Lemma dfs_size (t : tree D S P) : forall turns parent, length (dfs t turns parent) = size t.
Proof. induction t as [i|i d a b c1 IH1 c2 IH2]; intros; simpl; auto. rewrite app_length, IH1, IH2. auto. Qed.

Lemma dfs_in (t : tree D S P) : forall turns parent x, In x (dfs t turns parent) ->
  (forall d, snd (fst x) = Some d -> parent = Some d \/ In d (descs t)) /\
  (forall i d a b c1 c2, snd x = Split i d a b c1 c2 -> In d (descs t)) /\
  (forall i, snd x = Leaf i -> In i (leaves t)).
Proof.
  induction t as [i|i d a b c1 IH1 c2 IH2]; intros turns parent x.
  - intros [<-|[]]; simpl. split; [auto|]. split; [discriminate|]. intros j [= ->]. auto.
  - cbn [dfs]. intros [<-|Hx].
    + simpl. split; [auto|]. split; [|discriminate]. intros ? ? ? ? ? ? [= -> -> -> -> -> ->]. auto.
    + apply in_app_iff in Hx. simpl descs. simpl leaves. destruct Hx as [Hx|Hx]; [apply IH1 in Hx|apply IH2 in Hx]; destruct Hx as (A & B & C);
        (split; [|split]); intros; try (right; apply in_app_iff; eauto; fail); try (apply in_app_iff; eauto; fail).
      * destruct (A _ H) as [[= ->]|F]; right; [left; auto|right; apply in_app_iff; auto].
      * destruct (A _ H) as [[= ->]|F]; right; [left; auto|right; apply in_app_iff; auto].
Qed.

Lemma leaf_text_one i : one_line (pred_text (i_post i)) -> (forall f, mean_text = Some f -> one_line (f (i_post i))) -> one_line (body i).
Proof.
  intros H1 H2. unfold leaf_text. assert (L : forall s, forallb (fun c => negb (N.eqb c NL)) s = true -> one_line s).
  { intros s H Hin. rewrite forallb_forall in H. apply H in Hin. discriminate. }
  repeat apply one_line_app; auto using dec_one; try (apply L; reflexivity).
  destruct mean_text; [apply one_line_app; auto; apply L; reflexivity|apply one_line_nil].
Qed.

Lemma model_lines (t : tree D S P) :
  lines (str_model prefix split_text pred_text mean_text (Some t)) =
  flat_map (fun x => lines (line_of prefix split_text body x)) (dfs t [] None).
Proof. exact (str_lines t [] None eq_refl). Qed.

Lemma flat_map_single {A B} (f : A -> list B) (g : A -> B) l : (forall x, In x l -> f x = [g x]) -> flat_map f l = map g l.
Proof. induction l as [|x l IH]; simpl; auto. intros H. rewrite H, IH; auto. Qed.

Lemma model_one_line (t : tree D S P) :
  (forall d b, In d (descs t) -> one_line (prefix d b) /\ one_line (split_text d)) ->
  (forall i, In i (leaves t) -> one_line (pred_text (i_post i))) ->
  (forall f i, mean_text = Some f -> In i (leaves t) -> one_line (f (i_post i))) ->
  let ls := lines (str_model prefix split_text pred_text mean_text (Some t)) in
  ls = map (line_of prefix split_text body) (dfs t [] None) /\ length ls = size t.
Proof.
  intros H1 H3 H4. assert (E : lines (str_model prefix split_text pred_text mean_text (Some t)) = map (line_of prefix split_text body) (dfs t [] None)).
  { rewrite model_lines. apply flat_map_single. intros x Hx. apply lines_one. destruct (dfs_in _ _ _ _ Hx) as (A & B & C). apply line_of_one.
    - intros d b E. apply H1. destruct (A d E) as [F|F]; [discriminate|auto].
    - intros i d a b c1 c2 E. apply (H1 d true). eapply B; eauto.
    - intros i E. apply leaf_text_one; auto. }
  intros ls. unfold ls. rewrite E. split; auto. rewrite map_length. apply dfs_size.
Qed.
End Q.
