(** * ObjectProofs: the object-level methods compute the trees of Tree.v, Perp.v and Hyper.v. *)
From Coq Require Import Reals.
From Verif Require Import Prelude Tree Perp Hyper Object ObjectSpec.
Local Open Scope nat_scope.

(** ** Sequences of states *)
Section Runs.
Context {U S P : Type}.
Notation obj := (obj U S P).
Notation M := (@M U S P).

Definition same_self (s o : obj) : Prop := same_args s o /\ at_post (oattrs o) = at_post (oattrs s).
Definition keeps (m : M) (s : obj) : Prop := Forall (same_self s) (fst (m s)).
Definition keeps_args (m : M) (s : obj) : Prop := Forall (same_args s) (fst (m s)).

Lemma same_self_refl s : same_self s s.
Proof. repeat split. Qed.
Lemma same_self_trans (a b c : obj) : same_self a b -> same_self b c -> same_self a c.
Proof. unfold same_self, same_args. intuition congruence. Qed.
Lemma same_args_trans (a b c : obj) : same_args a b -> same_args b c -> same_args a c.
Proof. unfold same_args. intuition congruence. Qed.

Lemma last_app_ne {A} (l1 l2 : list A) d : last (l1 ++ l2) d = last l2 (last l1 d).
Proof.
  revert d. induction l1 as [|a l1 IH]; intros d; [reflexivity|]. cbn [app].
  assert (Hd : forall (l : list A) a d, last (a :: l) d = last l a).
  { clear. induction l as [|b l IH]; intros a d; [reflexivity|]. change (last (a :: b :: l) d) with (last (b :: l) d). rewrite (IH b d). rewrite (IH b a). reflexivity. }
  rewrite !Hd. apply IH.
Qed.
Lemma outcome_then (m1 m2 : M) s : outcome_of (m1 ;; m2) s = let! s1 := outcome_of m1 s in outcome_of m2 s1.
Proof.
  unfold outcome_of, andthen. destruct (m1 s) as [t1 [e|]]; [reflexivity|]. cbn [rbind].
  destruct (m2 (last t1 s)) as [t2 [e|]]; [reflexivity|]. rewrite last_app_ne. reflexivity.
Qed.
Lemma outcome_write f s : outcome_of (write f : M) s = Ok (f s).
Proof. reflexivity. Qed.
Lemma outcome_reading (f : obj -> M) s : outcome_of (reading f) s = outcome_of (f s) s.
Proof. reflexivity. Qed.
Lemma outcome_raise e s : outcome_of (raise e : M) s = Err e.
Proof. reflexivity. Qed.
Lemma outcome_done s : outcome_of (done : M) s = Ok s.
Proof. reflexivity. Qed.
Lemma outcome_lifted {A} (r : res A) (f : A -> M) s : outcome_of (lifted r f) s = let! a := r in outcome_of (f a) s.
Proof. destruct r; reflexivity. Qed.
Lemma map_last {A B} (f : A -> B) l d : last (map f l) (f d) = f (last l d).
Proof. induction l as [|a [|b l] IH]; auto. Qed.
Lemma outcome_c1 (m : M) a o c2 : outcome_of (in_c1 m) (Obj a (Ref o) c2) = let! o' := outcome_of m o in Ok (Obj a (Ref o') c2).
Proof.
  unfold outcome_of, in_c1. destruct (m o) as [t [e|]]; [reflexivity|]. cbn [rbind].
  exact (f_equal Ok (map_last (fun o' => set_c1 (Ref o') (Obj a (Ref o) c2)) t o)).
Qed.
Lemma outcome_c2 (m : M) a o c1 : outcome_of (in_c2 m) (Obj a c1 (Ref o)) = let! o' := outcome_of m o in Ok (Obj a c1 (Ref o')).
Proof.
  unfold outcome_of, in_c2. destruct (m o) as [t [e|]]; [reflexivity|]. cbn [rbind].
  exact (f_equal Ok (map_last (fun o' => set_c2 (Ref o') (Obj a c1 (Ref o))) t o)).
Qed.

Lemma last_Forall {A} (Q : A -> Prop) l d : Q d -> Forall Q l -> Q (last l d).
Proof. intros Hd Hl. induction Hl as [|a [|b l] Ha Hl IH]; auto. Qed.
Lemma keeps_outcome m s s1 : keeps m s -> outcome_of m s = Ok s1 -> same_self s s1.
Proof.
  unfold keeps, outcome_of. destruct (m s) as [t [e|]]; [discriminate|]. intros H [= <-]. apply last_Forall; auto using same_self_refl.
Qed.
Lemma keeps_args_outcome m s s1 : keeps_args m s -> outcome_of m s = Ok s1 -> same_args s s1.
Proof.
  unfold keeps_args, outcome_of. destruct (m s) as [t [e|]]; [discriminate|]. intros H [= <-]. apply last_Forall; auto. split; auto.
Qed.
Lemma keeps_then m1 m2 s : keeps m1 s -> (forall s1, outcome_of m1 s = Ok s1 -> keeps m2 s1) -> keeps (m1 ;; m2) s.
Proof.
  intros H1 H2. pose proof (fun s1 => keeps_outcome m1 s s1 H1) as Ho. unfold keeps, outcome_of, andthen in *.
  destruct (m1 s) as [t1 [e|]]; [exact H1|]. specialize (H2 _ eq_refl). specialize (Ho _ eq_refl).
  destruct (m2 (last t1 s)) as [t2 e]. cbn [fst] in *. apply Forall_app. split; auto.
  eapply Forall_impl; [|exact H2]. intros o. apply same_self_trans; auto.
Qed.
Lemma keeps_args_then m1 m2 s : keeps_args m1 s -> (forall s1, outcome_of m1 s = Ok s1 -> keeps_args m2 s1) -> keeps_args (m1 ;; m2) s.
Proof.
  intros H1 H2. pose proof (fun s1 => keeps_args_outcome m1 s s1 H1) as Ho. unfold keeps_args, outcome_of, andthen in *.
  destruct (m1 s) as [t1 [e|]]; [exact H1|]. specialize (H2 _ eq_refl). specialize (Ho _ eq_refl).
  destruct (m2 (last t1 s)) as [t2 e]. cbn [fst] in *. apply Forall_app. split; auto.
  eapply Forall_impl; [|exact H2]. intros o. apply same_args_trans; auto.
Qed.
Lemma keeps_keeps_args m s : keeps m s -> keeps_args m s.
Proof. apply Forall_impl. intros o [H _]. exact H. Qed.
Lemma keeps_write f s : same_self s (f s) -> keeps (write f) s.
Proof. intros H. constructor; auto. Qed.
Lemma keeps_c1 m s : keeps (in_c1 m) s.
Proof.
  destruct s as [a [| |o] c2]; try (constructor; fail). unfold keeps, in_c1. destruct (m o) as [t e]. cbn [fst].
  apply Forall_forall. intros x Hx. apply in_map_iff in Hx as (y & <- & _). repeat split.
Qed.
Lemma keeps_c2 m s : keeps (in_c2 m) s.
Proof.
  destruct s as [a c1 [| |o]]; try (constructor; fail). unfold keeps, in_c2. destruct (m o) as [t e]. cbn [fst].
  apply Forall_forall. intros x Hx. apply in_map_iff in Hx as (y & <- & _). repeat split.
Qed.
Lemma keeps_split us s : keeps (write_split us) s.
Proof.
  unfold keeps, write_split. cbn [fst]. apply Forall_forall. intros x Hx. apply in_map_iff in Hx as (y & <- & _).
  destruct s. repeat split.
Qed.
Lemma keeps_done s : keeps done s.
Proof. constructor. Qed.
Lemma keeps_raise e s : keeps (raise e) s.
Proof. constructor. Qed.
Lemma keeps_lifted {A} (r : res A) f s : (forall a, r = Ok a -> keeps (f a) s) -> keeps (lifted r f) s.
Proof. destruct r; intros H; [apply H; auto|constructor]. Qed.
Lemma keeps_erase_base s : keeps erase_base s.
Proof.
  unfold erase_base. repeat (apply keeps_then; [apply keeps_write; destruct s; repeat split|intros s1 [= <-]]).
  apply keeps_write. destruct s. repeat split.
Qed.
(** A method whose last step is the only one that does not keep [posterior_]. *)
Definition keeps_front (m : M) (s : obj) : Prop :=
  match m s with (t, None) => exists t0 o, t = t0 ++ [o] /\ Forall (same_self s) t0 /\ same_args s o | (t, Some _) => Forall (same_self s) t end.
Lemma front_then m1 f s : keeps m1 s -> (forall o, same_args o (f o)) -> keeps_front (m1 ;; write f) s.
Proof.
  intros H1 Hf. pose proof (fun s1 => keeps_outcome m1 s s1 H1) as Ho. unfold keeps_front, andthen, keeps, outcome_of in *.
  destruct (m1 s) as [t1 [e|]]; [exact H1|]. cbn. exists t1, (f (last t1 s)). split; auto. split; auto.
  eapply same_args_trans; [apply Ho; reflexivity|apply Hf].
Qed.
Lemma then_assoc (m1 m2 m3 : M) s : (m1 ;; m2 ;; m3) s = ((m1 ;; m2) ;; m3) s.
Proof.
  unfold andthen. destruct (m1 s) as [t1 [e|]]; auto. destruct (m2 (last t1 s)) as [t2 [e|]]; auto.
  rewrite last_app_ne. destruct (m3 (last t2 (last t1 s))) as [t3 e3]. rewrite app_assoc. auto.
Qed.
Lemma front_ext (m m' : M) s : m s = m' s -> keeps_front m' s -> keeps_front m s.
Proof. unfold keeps_front. intros ->. auto. Qed.
Lemma front_interrupted (m : M) s o : keeps_front m s -> interrupted m s o -> same_self s o.
Proof.
  intros Hf. unfold keeps_front in Hf. intros [->|(t1 & t2 & Ht & Hn)]; [apply same_self_refl|].
  destruct (m s) as [tr [x|]]; cbn [fst] in Ht.
  - rewrite Forall_forall in Hf. apply Hf. rewrite Ht. apply in_elt.
  - destruct Hf as (t0 & o' & E & Hf & _). rewrite Forall_forall in Hf. apply Hf.
    destruct (exists_last Hn) as (t3 & x & ->). rewrite E in Ht.
    change (t1 ++ o :: t3 ++ [x]) with (t1 ++ (o :: t3) ++ [x]) in Ht. rewrite app_assoc in Ht.
    apply app_inj_tail in Ht as [-> _]. apply in_elt.
Qed.
Lemma keeps_front_args m s : keeps_front m s -> keeps_args m s.
Proof.
  unfold keeps_front, keeps_args. destruct (m s) as [t [e|]]; cbn [fst].
  - apply Forall_impl. intros o [H _]. exact H.
  - intros (t0 & o & -> & H & Ho). apply Forall_app. split; [eapply Forall_impl; [|exact H]; intros x [Hx _]; exact Hx|auto].
Qed.
End Runs.

(** ** Subclass attributes *)
Section Klass.
Context {U D S P : Type}.
Variable K : klass U D.
Variable stored : D -> U.
Variable erased : U.
Definition klass_law : Prop :=
  (forall d u, exists us, k_store K d u = us ++ [stored d]) /\ (forall u, exists us, k_erase K u = us ++ [erased]) /\
  (forall d, k_read K (stored d) = Ok (Some d)) /\ k_read K erased = Ok None.
Hypothesis Klaw : klass_law.
Notation obj := (obj U S P).
Notation obj_of := (@obj_of U D S P stored erased).

Lemma set_split_split u v (s : obj) : set_split u (set_split v s) = set_split u s.
Proof. destruct s; reflexivity. Qed.
Lemma outcome_write_split (us : U -> list U) l v (s : obj) : us (at_split (oattrs s)) = l ++ [v] -> outcome_of (write_split us) s = Ok (set_split v s).
Proof. intros H. unfold outcome_of, write_split. rewrite H, map_app. simpl. rewrite last_app_ne. reflexivity. Qed.
Lemma outcome_store d (s : obj) : outcome_of (write_split (k_store K d)) s = Ok (set_split (stored d) s).
Proof. destruct Klaw as (H & _). destruct (H d (at_split (oattrs s))) as (us & E). eapply outcome_write_split; eauto. Qed.
Lemma outcome_erase (s : obj) : outcome_of (erase_split K) s = Ok (set_split erased s).
Proof. destruct Klaw as (_ & H & _). destruct (H (at_split (oattrs s))) as (us & E). eapply outcome_write_split; eauto. Qed.
Lemma outcome_erase_base (s : obj) : outcome_of erase_base s = Ok (set_best None (set_no None (set_c2 PyNone (set_c1 PyNone s)))).
Proof. reflexivity. Qed.

Lemma node_split_of t : node_split K (obj_of t) = Ok (match t with Leaf _ => None | Split _ d _ _ _ _ => Some d end).
Proof. destruct Klaw as (_ & _ & H1 & H2). destruct t; unfold node_split; simpl; auto. Qed.
Lemma obj_of_post t : at_post (oattrs (obj_of t)) = Some (i_post (info t)).
Proof. destruct t; reflexivity. Qed.
Lemma obj_of_fields t : at_prior (oattrs (obj_of t)) = i_prior (info t) /\ at_level (oattrs (obj_of t)) = i_level (info t) /\
  at_ndim (oattrs (obj_of t)) = i_n_dim (info t) /\ at_ndata (oattrs (obj_of t)) = Some (i_n_data (info t)).
Proof. destruct t; repeat split. Qed.

Lemma opredict_of {O} go1 go2 (val : option P -> P -> O) t : forall idx y,
  opredict K go1 go2 val (obj_of t) idx y = Ok (predict_into go1 go2 (fun i => val (i_prior i) (i_post i)) t idx y).
Proof.
  induction t as [i|i d a b c1 IH1 c2 IH2]; intros idx y; pose proof (node_split_of (Leaf i)) as Hl.
  - cbn [obj_of opredict]. cbn [obj_of] in Hl. rewrite Hl. reflexivity.
  - pose proof (node_split_of (Split i d a b c1 c2)) as Hs. cbn [obj_of opredict predict_into] in *. rewrite Hs. cbn [rbind].
    rewrite IH1. destruct (0 <? length (np_where (map (go1 d) idx))); cbn [rbind];
      (destruct (0 <? length (np_where (map (go2 d) idx))); [rewrite IH2; reflexivity|reflexivity]).
Qed.
Lemma odepth_of t : forall n, odepth K (obj_of t) n = Ok (update_depth t n).
Proof.
  induction t as [i|i d a b c1 IH1 c2 IH2]; intros n.
  - pose proof (node_split_of (Leaf i)) as Hl. cbn [obj_of odepth] in *. rewrite Hl. reflexivity.
  - pose proof (node_split_of (Split i d a b c1 c2)) as Hs. cbn [obj_of odepth update_depth] in *. rewrite Hs. cbn [rbind].
    rewrite IH1. cbn [rbind]. apply IH2.
Qed.
Lemma on_leaves_of t : forall n, on_leaves K (obj_of t) n = Ok (update_n_leaves t n).
Proof.
  induction t as [i|i d a b c1 IH1 c2 IH2]; intros n.
  - pose proof (node_split_of (Leaf i)) as Hl. cbn [obj_of on_leaves] in *. rewrite Hl. reflexivity.
  - pose proof (node_split_of (Split i d a b c1 c2)) as Hs. cbn [obj_of on_leaves update_n_leaves] in *. rewrite Hs. cbn [rbind].
    rewrite IH1. cbn [rbind]. apply IH2.
Qed.
Lemma opaths_of {St} go1 go2 (step : D -> bool -> St) t : forall idx refs h,
  opaths K go1 go2 step (obj_of t) idx refs h = Ok (update_paths go1 go2 step t idx refs h).
Proof.
  induction t as [i|i d a b c1 IH1 c2 IH2]; intros idx refs h.
  - pose proof (node_split_of (Leaf i)) as Hl. cbn [obj_of opaths] in *. rewrite Hl. reflexivity.
  - pose proof (node_split_of (Split i d a b c1 c2)) as Hs. cbn [obj_of opaths update_paths] in *. rewrite Hs. cbn [rbind].
    rewrite !node_split_of. cbn [rbind].
    destruct (0 <? length (np_where (map (go1 d) idx))); destruct (0 <? length (np_where (map (go2 d) idx)));
      destruct c1; destruct c2; cbn [rbind is_leaf negb andb]; rewrite ?IH1; cbn [rbind]; rewrite ?IH2; reflexivity.
Qed.

(** *** Pruning *)
Variable same : P -> P -> bool.
Lemma oprune_of fuel : forall t, outcome_of (oprune K same fuel) (obj_of t) =
  let! t' := prune_fuel (fun i j => same (i_post i) (i_post j)) fuel t in Ok (obj_of t').
Proof.
  induction fuel as [|fuel IH]; intros t; [reflexivity|]. cbn [oprune prune_fuel].
  rewrite outcome_reading, outcome_lifted, node_split_of. cbn [rbind].
  destruct t as [i|i d a b c1 c2]; [reflexivity|].
  rewrite outcome_lifted, odepth_of. cbn [rbind]. rewrite outcome_lifted, on_leaves_of. cbn [rbind].
  rewrite outcome_then. change (oc1 (obj_of (Split i d a b c1 c2))) with (Ref (obj_of c1)). change (oc2 (obj_of (Split i d a b c1 c2))) with (Ref (obj_of c2)).
  assert (Hin : outcome_of (in_c1 (oprune K same fuel);; in_c2 (oprune K same fuel)) (obj_of (Split i d a b c1 c2)) =
     (let! c1' := prune_fuel (fun i j => same (i_post i) (i_post j)) fuel c1 in
      let! c2' := prune_fuel (fun i j => same (i_post i) (i_post j)) fuel c2 in Ok (obj_of (Split i d a b c1' c2')))).
  { rewrite outcome_then. cbn [obj_of]. rewrite outcome_c1, IH. destruct (prune_fuel _ fuel c1) as [c1'|e]; cbn [rbind]; [|reflexivity].
    rewrite outcome_c2, IH. destruct (prune_fuel _ fuel c2) as [c2'|e]; reflexivity. }
  assert (Hstep : outcome_of
      (lifted (ref_split K (Ref (obj_of c1))) (fun s1 => lifted match s1 with None => ref_split K (Ref (obj_of c2)) | Some d => Ok (Some d) end
        (fun s2 => match s2 with
          | None => lifted (ref_post (Ref (obj_of c1))) (fun p1 => lifted (ref_post (Ref (obj_of c2)))
              (fun p2 => if same p1 p2 then erase_base;; erase_split K else done))
          | Some _ => in_c1 (oprune K same fuel);; in_c2 (oprune K same fuel) end)))
      (obj_of (Split i d a b c1 c2)) =
    let! t' := match c1, c2 with
      | Leaf i1, Leaf i2 => if same (i_post i1) (i_post i2) then Ok (Leaf i) else Ok (Split i d a b c1 c2)
      | _, _ => let! c1' := prune_fuel (fun i j => same (i_post i) (i_post j)) fuel c1 in
                let! c2' := prune_fuel (fun i j => same (i_post i) (i_post j)) fuel c2 in Ok (Split i d a b c1' c2') end in Ok (obj_of t')).
  { rewrite outcome_lifted. cbn [ref_split]. rewrite node_split_of. cbn [rbind]. rewrite outcome_lifted.
    destruct c1 as [i1|i1 d1 a1 b1 c11 c12].
    - rewrite node_split_of. cbn [rbind]. destruct c2 as [i2|i2 d2 a2 b2 c21 c22].
      + rewrite outcome_lifted. cbn [ref_post obj_of oattrs at_post rbind]. rewrite outcome_lifted. cbn [rbind].
        destruct (same (i_post i1) (i_post i2)); [|reflexivity].
        rewrite outcome_then, outcome_erase_base. cbn [rbind]. rewrite outcome_erase. reflexivity.
      + rewrite Hin. destruct (prune_fuel _ fuel (Leaf i1)); cbn [rbind]; [|reflexivity]. destruct (prune_fuel _ fuel (Split _ _ _ _ _ _)); reflexivity.
    - cbn [rbind]. rewrite Hin. destruct (prune_fuel _ fuel (Split _ _ _ _ _ _)); cbn [rbind]; [|reflexivity]. destruct (prune_fuel _ fuel c2); reflexivity. }
  rewrite Hstep. clear Hstep Hin.
  match goal with |- rbind (rbind ?r _) _ = rbind (rbind ?r' _) _ => change r' with r; destruct r as [t'|e]; cbn [rbind]; [|reflexivity] end.
  rewrite outcome_reading, outcome_lifted, odepth_of. cbn [rbind]. unfold get_depth, get_n_leaves.
  destruct (negb (update_depth (Split i d a b c1 c2) 0 =? update_depth t' 0)); cbn [orb]; [apply IH|].
  rewrite outcome_lifted, on_leaves_of. cbn [rbind].
  destruct (negb (update_n_leaves (Split i d a b c1 c2) 0 =? update_n_leaves t' 0)); [apply IH|reflexivity].
Qed.
Lemma oprune_keeps fuel : forall s : obj, keeps (oprune K same fuel) s.
Proof.
  induction fuel as [|fuel IH]; intros s; [apply keeps_raise|]. cbn [oprune]. unfold keeps, reading. cbv beta.
  match goal with |- Forall (same_self s) (fst (?m s)) => change (keeps m s) end.
  apply keeps_lifted. intros [d|] _; [|apply keeps_done].
  apply keeps_lifted. intros n1 _. apply keeps_lifted. intros n2 _. apply keeps_then.
  - apply keeps_lifted. intros s1 _. apply keeps_lifted. intros [s2|] _.
    + apply keeps_then; [apply keeps_c1|intros; apply keeps_c2].
    + apply keeps_lifted. intros p1 _. apply keeps_lifted. intros p2 _. destruct (same p1 p2); [|apply keeps_done].
      apply keeps_then; [apply keeps_erase_base|intros; apply keeps_split].
  - intros s1 _. unfold keeps, reading. cbv beta.
    match goal with |- Forall (same_self s1) (fst (?m s1)) => change (keeps m s1) end.
    apply keeps_lifted. intros n3 _. destruct (negb (n1 =? n3)); [apply IH|]. apply keeps_lifted. intros n4 _.
    destruct (negb (n2 =? n4)); [apply IH|apply keeps_done].
Qed.
End Klass.

Lemma perp_law {NM V} : klass_law (@perp_klass NM V) perp_stored perp_erased.
Proof.
  split; [|split; [|split]].
  - intros d u. eexists [_; _]. reflexivity.
  - intros u. eexists [_; _]. reflexivity.
  - intros [d nm v]. cbn. rewrite Nat2Z.id. reflexivity.
  - reflexivity.
Qed.
Lemma hyper_law {N O} : klass_law (@hyper_klass N O) hyper_stored hyper_erased.
Proof.
  split; [|split; [|split]].
  - intros d u. eexists [_]. reflexivity.
  - intros u. eexists [_]. reflexivity.
  - intros [n o]. reflexivity.
  - reflexivity.
Qed.
