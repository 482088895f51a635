(** * OptimProofs: proofs about the optimizers. *)
From Coq Require Import Reals Lra Permutation Sorted.
From Verif Require Import Prelude Tree Perp RealOps Clf Reg Api Hyper Sphere SphereProofs Optim.
Local Open Scope R_scope.

Lemma Rltb_true a b : Rltb a b = true <-> a < b.
Proof. unfold Rltb. destruct (Rlt_dec a b); split; auto; try discriminate; lra. Qed.
Lemma Rltb_false a b : Rltb a b = false <-> b <= a.
Proof. unfold Rltb. destruct (Rlt_dec a b); split; auto; try discriminate; lra. Qed.
Lemma Rleb_true a b : Rleb a b = true <-> a <= b.
Proof. unfold Rleb. destruct (Rle_dec a b); split; auto; try discriminate; lra. Qed.
Lemma Rleb_false a b : Rleb a b = false <-> b < a.
Proof. unfold Rleb. destruct (Rle_dec a b); split; auto; try discriminate; lra. Qed.
Lemma Reqb_true a b : Reqb a b = true <-> a = b.
Proof. unfold Reqb. destruct (Req_EM_T a b); split; auto; discriminate. Qed.
Lemma Reqb_refl a : Reqb a a = true.
Proof. now apply Reqb_true. Qed.

(** ** Hoare triples: normal results satisfy [Q], errors satisfy [E]; the points evaluated are collected *)
Definition triple {A} (Pre : rstate -> Prop) (m : M A) (Q : A -> rstate -> Prop) (E : exn -> rstate -> Prop) : Prop :=
  forall s, Pre s -> match m s with (Ok a, s') => Q a s' | (Err e, s') => E e s' end.

Lemma triple_ret {A} (Pre : rstate -> Prop) (a : A) (Q : A -> rstate -> Prop) E : (forall s, Pre s -> Q a s) -> triple Pre (ret a) Q E.
Proof. intros H s Hs. cbn. auto. Qed.
Lemma triple_raise {A} (Pre : rstate -> Prop) e (Q : A -> rstate -> Prop) (E : exn -> rstate -> Prop) : (forall s, Pre s -> E e s) -> triple Pre (raise e) Q E.
Proof. intros H s Hs. cbn. auto. Qed.
Lemma triple_bind {A B} (Pre : rstate -> Prop) (m : M A) (k : A -> M B) (Q : A -> rstate -> Prop) (Q' : B -> rstate -> Prop) (E : exn -> rstate -> Prop) :
  triple Pre m Q E -> (forall a, triple (Q a) (k a) Q' E) -> triple Pre (bind m k) Q' E.
Proof.
  intros Hm Hk s Hs. unfold bind. specialize (Hm s Hs). destruct (m s) as [[a|e] s']; [exact (Hk a s' Hm)|exact Hm].
Qed.
Lemma triple_conseq {A} (P P' : rstate -> Prop) (m : M A) (Q Q' : A -> rstate -> Prop) (E E' : exn -> rstate -> Prop) :
  triple P' m Q' E' -> (forall s, P s -> P' s) -> (forall a s, Q' a s -> Q a s) -> (forall e s, E' e s -> E e s) -> triple P m Q E.
Proof. intros H HP HQ HE s Hs. specialize (H s (HP s Hs)). destruct (m s) as [[a|e] s']; auto. Qed.
Lemma triple_for {A S} (l : list A) (body : A -> S -> M S) (Inv : list A -> S -> rstate -> Prop) E :
  (forall a l' x, incl (a :: l') l -> triple (Inv (a :: l') x) (body a x) (fun x' => Inv l' x') E) ->
  forall x, triple (Inv l x) (for_each l body x) (fun x' => Inv [] x') E.
Proof.
  intros H. assert (forall l', incl l' l -> forall x, triple (Inv l' x) (for_each l' body x) (fun x' => Inv [] x') E) as G.
  { induction l' as [|a l' IH]; intros Hi x; cbn [for_each]; [now apply triple_ret|].
    eapply triple_bind; [now apply H|]. intros x'. cbv beta. apply IH. intros z Hz. apply Hi. now right. }
  intros x. now apply G, incl_refl.
Qed.

(** ** Dictionaries and sorting *)
Lemma insert_key_perm v l : Permutation (insert_key v l) (v :: l).
Proof. induction l as [|w l IH]; cbn; [auto|]. destruct (Rleb v w); [auto|]. rewrite IH. apply perm_swap. Qed.
Lemma sort_keys_perm l : Permutation (sort_keys l) l.
Proof. induction l as [|v l IH]; cbn; [auto|]. rewrite insert_key_perm. now apply perm_skip. Qed.
Lemma sort_keys_In v l : In v (sort_keys l) <-> In v l.
Proof. split; apply Permutation_in; [apply sort_keys_perm|apply Permutation_sym, sort_keys_perm]. Qed.
Lemma sort_keys_length l : length (sort_keys l) = length l.
Proof. apply Permutation_length, sort_keys_perm. Qed.
Lemma insert_key_sorted v l : StronglySorted Rle l -> StronglySorted Rle (insert_key v l).
Proof.
  induction 1 as [|w l Hl IH Hw]; cbn; [repeat constructor|]. destruct (Rleb v w) eqn:E.
  - apply Rleb_true in E. constructor; [now constructor|]. constructor; [auto|]. eapply Forall_impl; [|exact Hw]. cbn. intros; lra.
  - apply Rleb_false in E. constructor; [auto|]. apply Forall_forall. intros z Hz. apply (Permutation_in _ (insert_key_perm v l)) in Hz.
    destruct Hz as [<-|Hz]; [lra|]. rewrite Forall_forall in Hw. auto.
Qed.
Lemma sort_keys_sorted l : StronglySorted Rle (sort_keys l).
Proof. induction l; cbn; [constructor|]. now apply insert_key_sorted. Qed.
Lemma sort_keys_min l v : In v l -> nth 0 (sort_keys l) 0 <= v.
Proof.
  intros H. apply sort_keys_In in H. pose proof (sort_keys_sorted l) as Hs. destruct (sort_keys l) as [|w r]; [destruct H|].
  inversion Hs; subst. rewrite Forall_forall in *. destruct H as [<-|H]; cbn; [lra|auto].
Qed.
Lemma sort_keys_nth_In l i : (i < length l)%nat -> In (nth i (sort_keys l) 0) l.
Proof. intros H. apply sort_keys_In, nth_In. now rewrite sort_keys_length. Qed.

Lemma d_set_keys d v p w : In w (keys (d_set d v p)) <-> In w (keys d) \/ w = v.
Proof.
  induction d as [|[u q] d IH]; cbn; [intuition|]. destruct (Reqb u v) eqn:E; cbn.
  - apply Reqb_true in E. subst. intuition.
  - unfold keys in *. rewrite IH. intuition.
Qed.
Lemma d_set_In d v p e : In e (d_set d v p) -> In e d \/ e = (v, p).
Proof.
  induction d as [|[u q] d IH]; cbn; [intuition|]. destruct (Reqb u v) eqn:E; cbn.
  - apply Reqb_true in E. subst. intros [<-|H]; auto.
  - intros [<-|H]; [auto|]. destruct (IH H); auto.
Qed.
Lemma d_set_length d v p : (length d <= length (d_set d v p))%nat.
Proof. induction d as [|[u q] d IH]; cbn; [lia|]. destruct (Reqb u v); cbn; lia. Qed.
Lemma d_set_nonempty d v p : d_set d v p <> [].
Proof. destruct d as [|[u q] d]; cbn; [discriminate|]. destruct (Reqb u v); discriminate. Qed.
Lemma d_get_In d v : In v (keys d) -> In (v, d_get d v) d.
Proof.
  induction d as [|[u q] d IH]; cbn; [intros []|]. destruct (Reqb u v) eqn:E.
  - apply Reqb_true in E. subst. auto.
  - intros [H|H]; [subst; rewrite Reqb_refl in E; discriminate|auto].
Qed.
Lemma keys_In d e : In e d -> In (fst e) (keys d).
Proof. intros H. unfold keys. now apply in_map. Qed.

Lemma scaled_index i len n : (i < n -> 0 < len -> i * len / n < len)%nat.
Proof. intros. apply Nat.div_lt_upper_bound; nia. Qed.

(** ** Points of the search space *)
Definition cube (n : nat) (p : list R) : Prop := length p = n /\ Forall (fun u => 0 <= u <= 1) p.

Lemma clip_cube n p : length p = n -> cube n (clip p).
Proof.
  intros H. split; [unfold clip; now rewrite map_length|]. apply Forall_forall. intros a Ha. unfold clip in Ha. apply in_map_iff in Ha as (b & <- & _).
  split; [apply Rmin_glb; [lra|apply Rmax_l]|apply Rmin_l].
Qed.
Lemma map2_length {A B C} (f : A -> B -> C) a b n : length a = n -> length b = n -> length (map2 f a b) = n.
Proof. revert b n. induction a as [|x a IH]; intros [|z b] n Ha Hb; cbn in *; try lia. destruct n; [lia|]. f_equal. apply IH; lia. Qed.
Lemma draws_cube (rnd : nat -> R) k n : (forall i, 0 <= rnd i <= 1) -> cube n (map (fun i => 0 + (1 - 0) * rnd (k + i)%nat) (seq 0 n)).
Proof.
  intros H. split; [now rewrite map_length, seq_length|]. apply Forall_forall. intros a Ha. apply in_map_iff in Ha as (i & <- & _). specialize (H (k + i)%nat). lra.
Qed.
Lemma set_nth_length {A} k (v : A) l : length (set_nth k v l) = length l.
Proof. revert k. induction l as [|a l IH]; intros [|k]; cbn; auto. Qed.
Lemma set_nth_In {A} k (v : A) l a : In a (set_nth k v l) -> In a l \/ a = v.
Proof. revert k. induction l as [|b l IH]; intros [|k]; cbn; intuition. destruct (IH _ H0); auto. Qed.

(** A dictionary of evaluated points. *)
Definition dict_ok (n : nat) (V : R -> Prop) (d : dict) : Prop := forall v p, In (v, p) d -> V v /\ cube n p.
Lemma dict_ok_set n V d v p : dict_ok n V d -> V v -> cube n p -> dict_ok n V (d_set d v p).
Proof. intros H Hv Hp w q Hin. apply d_set_In in Hin as [Hin|E]; [auto|]. inversion E; subst. auto. Qed.
Lemma dict_ok_get n V d v : dict_ok n V d -> In v (keys d) -> V v /\ cube n (d_get d v).
Proof. intros H Hv. apply (H v), d_get_In, Hv. Qed.

Definition count_below (vals : list R) (b : R) : nat := length (filter (fun v => Rltb v b) vals).
Lemma count_below_le vals b : (count_below vals b <= length vals)%nat.
Proof. unfold count_below. induction vals as [|v vals IH]; cbn; [lia|]. destruct (Rltb v b); cbn; lia. Qed.
Lemma count_below_mono vals a b : a <= b -> (count_below vals a <= count_below vals b)%nat.
Proof.
  intros H. unfold count_below. induction vals as [|v vals IH]; cbn; [lia|].
  destruct (Rltb v a) eqn:E1; destruct (Rltb v b) eqn:E2; cbn; try lia.
  apply Rltb_true in E1. apply Rltb_false in E2. lra.
Qed.
Lemma count_below_lt vals a b : In a vals -> a < b -> (count_below vals a < count_below vals b)%nat.
Proof.
  intros Hin H. induction vals as [|v vals IH]; [destruct Hin|]. unfold count_below in *. cbn [filter].
  destruct Hin as [->|Hin].
  - replace (Rltb a a) with false by (symmetry; apply Rltb_false; lra). replace (Rltb a b) with true by (symmetry; now apply Rltb_true).
    cbn. pose proof (count_below_mono vals a b). unfold count_below in *. assert (a <= b) by lra. specialize (H0 H1). lia.
  - specialize (IH Hin). destruct (Rltb v a) eqn:E1; destruct (Rltb v b) eqn:E2; cbn; try lia.
    apply Rltb_true in E1. apply Rltb_false in E2. lra.
Qed.

(** Keeping the best candidates. *)
Lemma keep_best_ok n_keep best idle c n V : (0 < n_keep)%nat -> c <> [] -> dict_ok n V c ->
  exists d, forall s, keep_best n_keep best idle c s =
    (Ok (if improves (nth 0 (sort_keys (keys c)) 0) best then 0%nat else (1 + idle)%nat, d), s) /\
    d <> [] /\ dict_ok n V d /\ nth 0 (sort_keys (keys d)) 0 = nth 0 (sort_keys (keys c)) 0.
Proof.
  intros Hk Hc Hok. unfold keep_best. set (vs := sort_keys (keys c)).
  assert (vs <> []) as Hvs.
  { unfold vs. intros E. apply (f_equal (@length R)) in E. rewrite sort_keys_length in E. unfold keys in E. rewrite map_length in E. destruct c; cbn in E; [congruence|lia]. }
  assert (exists v0 r, vs = v0 :: r) as (v0 & r & Ev) by (destruct vs; [congruence|eauto]). clear Hvs.
  destruct n_keep as [|nk]; [lia|]. rewrite Ev. cbn [firstn nth].
  set (ws := v0 :: firstn nk r). exists (map (fun v => (v, d_get c v)) ws). intros s. split; [reflexivity|]. split; [discriminate|].
  assert (forall v, In v ws -> In v (keys c)) as Hin.
  { intros v Hv. apply sort_keys_In. fold vs. rewrite Ev. destruct Hv as [<-|Hv]; [now left|right]. rewrite <- (firstn_skipn nk r). apply in_or_app. now left. }
  split.
  - intros v p Hp. apply in_map_iff in Hp as (w & E & Hw). inversion E; subst. apply dict_ok_get; auto.
  - assert (keys (map (fun v => (v, d_get c v)) ws) = ws) as -> by (unfold keys; rewrite map_map; apply map_id).
    pose proof (sort_keys_sorted (keys c)) as Hs. fold vs in Hs. rewrite Ev in Hs. inversion Hs; subst. rewrite Forall_forall in *.
    apply Rle_antisym; [apply sort_keys_min; now left|].
    assert (In (nth 0 (sort_keys ws) 0) ws) as Hi by (apply sort_keys_nth_In; cbn; lia).
    destruct Hi as [<-|Hi]; [lra|]. apply H2. rewrite <- (firstn_skipn nk r). apply in_or_app. now left.
Qed.

Section Solvers.
Variables (rnd : nat -> R) (obj : list R -> res R) (n : nat).
Hypothesis Hrnd : forall k, 0 <= rnd k <= 1.
(** What the objective returns or raises inside the search space. *)
Variables (V : R -> Prop) (Ev : exn -> Prop).
Hypothesis Hobj : forall p, cube n p -> match obj p with Ok v => V v | Err e => Ev e end.

Definition inside (s : rstate) : Prop := Forall (cube n) (r_evals s).
Definition bad (e : exn) (s : rstate) : Prop := Ev e /\ inside s.

Lemma evaluate_triple p m : cube n p ->
  triple (fun s => inside s /\ length (r_evals s) = m) (evaluate obj p) (fun v s => V v /\ inside s /\ length (r_evals s) = S m) bad.
Proof.
  intros Hp s (Hs & Hm). cbn. specialize (Hobj p Hp). destruct (obj p) as [v|e].
  - split; [auto|]. split; [now constructor|]. cbn. lia.
  - split; [auto|]. now constructor.
Qed.

Lemma scan_triple N d m : dict_ok n V d ->
  triple (fun s => inside s /\ length (r_evals s) = m) (scan rnd obj n N d)
    (fun d' s => inside s /\ length (r_evals s) = (m + N)%nat /\ dict_ok n V d' /\ ((0 < N)%nat -> d' <> [])) bad.
Proof.
  intros Hd. unfold scan.
  eapply triple_conseq; [apply (triple_for (seq 0 N) _ (fun l x s => inside s /\ (length (r_evals s) + length l = m + N)%nat /\ dict_ok n V x /\ ((length l < N)%nat -> x <> [])) bad)| | |].
  - intros a l' x Hi s (Hs & Hm & Hx & Hne). cbn.
    pose proof (draws_cube rnd (r_draws s) n Hrnd) as Hp. specialize (Hobj _ Hp).
    match goal with |- context [obj ?z] => set (p := z) in * end. destruct (obj p) as [v|e]; cbn.
    + split; [now constructor|]. cbn in Hm. split; [lia|]. split; [now apply dict_ok_set|]. intros _. apply d_set_nonempty.
    + split; [auto|]. now constructor.
  - intros s (Hs & Hm). rewrite seq_length. split; [auto|]. split; [lia|]. split; [auto|]. lia.
  - intros d' s (Hs & Hm & Hx & Hne). cbn in *. split; [auto|]. split; [lia|]. split; [auto|]. intros H. auto.
  - auto.
Qed.

Lemma evolve_triple n_keep f d m : dict_ok n V d -> d <> [] ->
  triple (fun s => inside s /\ length (r_evals s) = m) (evolve rnd obj n n_keep f d)
    (fun d' s => inside s /\ length (r_evals s) = (m + n_keep)%nat /\ dict_ok n V d' /\ incl (keys d) (keys d')) bad.
Proof.
  intros Hd Hne. unfold evolve. set (vs := sort_keys (keys d)).
  assert (0 < length vs)%nat as Hlen by (unfold vs, keys; rewrite sort_keys_length, map_length; destruct d; [congruence|cbn; lia]).
  eapply triple_conseq; [apply (triple_for (seq 0 n_keep) _ (fun l x s => inside s /\ (length (r_evals s) + length l = m + n_keep)%nat /\ dict_ok n V x /\ incl (keys d) (keys x)) bad)| | |].
  - intros i l' x Hi s (Hs & Hm & Hx & Hinc). cbn.
    assert (i < n_keep)%nat as Hik by (specialize (Hi i (or_introl eq_refl)); apply in_seq in Hi; lia).
    assert (In (nth (i * length vs / n_keep) vs 0) (keys x)) as Hk.
    { apply Hinc, sort_keys_nth_In. rewrite <- (sort_keys_length (keys d)). fold vs. now apply scaled_index. }
    destruct (dict_ok_get _ _ _ _ Hx Hk) as (_ & Hc & _).
    match goal with |- context [obj ?z] => assert (cube n z) as Hp end.
    { apply clip_cube, map2_length; [auto|]. now rewrite !map_length, seq_length. }
    specialize (Hobj _ Hp). match goal with |- context [obj ?z] => set (p := z) in * end. destruct (obj p) as [v|e]; cbn.
    + split; [now constructor|]. cbn in Hm. split; [lia|]. split; [now apply dict_ok_set|]. intros w Hw. apply d_set_keys. left. auto.
    + split; [auto|]. now constructor.
  - intros s (Hs & Hm). rewrite seq_length. split; [auto|]. split; [lia|]. split; [auto|]. apply incl_refl.
  - intros d' s (Hs & Hm & Hx & Hinc). cbn in *. split; [auto|]. split; [lia|]. auto.
  - auto.
Qed.
End Solvers.

(** ** Simulated annealing: safety *)
Lemma keep_best_shape n_keep best idle c n : dict_ok n (fun _ => True) c -> forall s,
  match keep_best n_keep best idle c s with (Ok r, s') => s' = s /\ dict_ok n (fun _ => True) (snd r) | (Err e, s') => s' = s end.
Proof.
  intros Hc s. unfold keep_best. destruct (firstn n_keep (sort_keys (keys c))) as [|v0 r] eqn:E; cbn [raise ret]; [reflexivity|].
  split; [reflexivity|]. cbn [snd]. intros v p Hin. apply in_map_iff in Hin as (w & Ew & Hw). inversion Ew; subst. split; [auto|].
  apply (dict_ok_get n (fun _ => True) c v); auto. apply sort_keys_In. rewrite <- E in Hw. rewrite <- (firstn_skipn n_keep (sort_keys (keys c))). apply in_or_app. now left.
Qed.

Section Safety.
Variables (rnd : nat -> R) (obj : list R -> res R) (n n_scan n_keep : nat) (spread : R).
Hypothesis Hrnd : forall k, 0 <= rnd k <= 1.
Notation T := (fun _ : R => True).

Lemma any_obj : forall p, cube n p -> match obj p with Ok v => T v | Err e => True end.
Proof. intros p _. destruct (obj p); exact I. Qed.

Lemma sa_loop_safe fuel : forall idle best f cands s, inside n s -> dict_ok n T cands ->
  inside n (snd (sa_loop rnd obj n n_scan n_keep spread fuel idle best f cands s)).
Proof.
  induction fuel as [|fuel IH]; intros idle best f cands s Hs Hc; cbn [sa_loop]; [exact Hs|].
  destruct (idle <? 50)%nat; [|exact Hs]. destruct cands as [|e c].
  - unfold bind at 1. pose proof (scan_triple rnd obj n Hrnd T (fun _ => True) any_obj n_scan [] (length (r_evals s)) Hc s (conj Hs eq_refl)) as H.
    destruct (scan rnd obj n n_scan [] s) as [[d|e] s1]; cbn; [|apply H]. destruct H as (H1 & _ & H2 & _).
    unfold bind. pose proof (keep_best_shape n_keep best idle d n H2 s1) as K. destruct (keep_best n_keep best idle d s1) as [[r|e] s2]; cbn.
    + destruct K as [-> K]. now apply IH.
    + now rewrite K.
  - set (cs := e :: c) in *. unfold bind at 1.
    pose proof (evolve_triple rnd obj n T (fun _ => True) any_obj n_keep f cs (length (r_evals s)) Hc ltac:(discriminate) s (conj Hs eq_refl)) as H.
    destruct (evolve rnd obj n n_keep f cs s) as [[d|e'] s1]; cbn [snd]; [|apply H]. destruct H as (H1 & _ & H2 & _).
    unfold bind. pose proof (keep_best_shape n_keep (Some (nth 0 (sort_keys (keys cs)) 0)) idle d n H2 s1) as K.
    destruct (keep_best n_keep (Some (nth 0 (sort_keys (keys cs)) 0)) idle d s1) as [[r|e'] s2]; cbn [snd fst].
    + destruct K as [-> K]. now apply IH.
    + cbn in K. now rewrite K.
Qed.
End Safety.

(** ** Simulated annealing: termination *)
Definition dmin (d : dict) : R := nth 0 (sort_keys (keys d)) 0.
Lemma dmin_In d : d <> [] -> In (dmin d) (keys d).
Proof. intros H. apply sort_keys_nth_In. unfold keys. rewrite map_length. destruct d; [congruence|cbn; lia]. Qed.
Lemma dmin_incl d d' : d <> [] -> incl (keys d) (keys d') -> dmin d' <= dmin d.
Proof. intros Hd Hi. apply sort_keys_min, Hi, dmin_In, Hd. Qed.
Lemma dmin_val vals m d : d <> [] -> dict_ok m (fun v => In v vals) d -> In (dmin d) vals.
Proof. intros H Hd. apply (dict_ok_get m (fun v => In v vals) d); [auto|]. now apply dmin_In. Qed.


Section Annealing.
Variables (rnd : nat -> R) (obj : list R -> res R) (n n_scan n_keep : nat) (spread : R).
Hypothesis Hrnd : forall k, 0 <= rnd k <= 1.
Variable vals : list R.
Hypothesis Hobj : forall p, cube n p -> exists v, obj p = Ok v /\ In v vals.
Hypothesis Hkeep : (0 < n_keep)%nat.
Notation V := (fun v : R => In v vals).

Lemma fin_obj : forall p, cube n p -> match obj p with Ok v => V v | Err e => False end.
Proof. intros p Hp. destruct (Hobj p Hp) as (v & -> & Hv). exact Hv. Qed.

Lemma sa_loop_ends fuel : forall idle best f cands s, inside n s -> dict_ok n V cands -> cands <> [] -> (idle <= 50)%nat ->
  (50 * count_below vals (dmin cands) + (50 - idle) < fuel)%nat ->
  exists s', sa_loop rnd obj n n_scan n_keep spread fuel idle best f cands s = (Ok tt, s') /\
    (length (r_evals s') <= length (r_evals s) + n_keep * (50 * count_below vals (dmin cands) + (50 - idle)))%nat.
Proof.
  induction fuel as [|fuel IH]; intros idle best f cands s Hs Hc Hne Hidle Hf; [lia|]. cbn [sa_loop].
  destruct (idle <? 50)%nat eqn:Ei.
  2: { exists s. split; [reflexivity|]. apply Nat.le_add_r. }
  apply Nat.ltb_lt in Ei. destruct cands as [|e c]; [congruence|]. set (cs := e :: c) in *. unfold bind at 1.
  pose proof (evolve_triple rnd obj n V (fun _ => False) fin_obj n_keep f cs (length (r_evals s)) Hc Hne s (conj Hs eq_refl)) as H.
  destruct (evolve rnd obj n n_keep f cs s) as [[d|e'] s1]; [|destruct H as [[] _]]. destruct H as (H1 & H2 & H3 & H4).
  assert (d <> []) as Hd. { intros ->. apply (H4 (dmin cs)), dmin_In. discriminate. }
  destruct (keep_best_ok n_keep (Some (dmin cs)) idle d n V Hkeep Hd H3) as (d' & K). destruct (K s1) as (K1 & K2 & K3 & K4). fold (dmin cs).
  unfold bind. rewrite K1. cbn [fst snd]. fold (dmin d) in *. fold (dmin d') in K4.
  pose proof (dmin_incl cs d Hne H4) as Hle. unfold improves.
  destruct (Rltb (dmin d) (dmin cs)) eqn:El.
  - apply Rltb_true in El. pose proof (count_below_lt vals (dmin d) (dmin cs) (dmin_val vals n d Hd H3) El) as Hlt.
    destruct (IH 0%nat (Some (dmin cs)) (f * spread) d' s1) as (s' & E & Hlen); auto; try lia; rewrite K4 in *; [lia|].
    exists s'. split; [exact E|]. rewrite H2 in Hlen. nia.
  - apply Rltb_false in El. assert (dmin d = dmin cs) as Eq by lra.
    destruct (IH (1 + idle)%nat (Some (dmin cs)) (f * spread) d' s1) as (s' & E & Hlen); auto; try lia; rewrite K4, Eq in *; [lia|].
    exists s'. split; [exact E|]. rewrite H2 in Hlen. nia.
Qed.

Lemma sa_solve_ends fuel s : (0 < n_scan)%nat -> inside n s -> (50 * length vals + 51 < fuel)%nat ->
  exists s', sa_solve rnd obj n n_scan n_keep spread fuel s = (Ok tt, s') /\
    (length (r_evals s') <= length (r_evals s) + n_scan + n_keep * (50 * length vals + 50))%nat.
Proof.
  intros Hscan Hs Hf. unfold sa_solve. destruct fuel as [|fuel]; [lia|]. cbn [sa_loop]. replace (0 <? 50)%nat with true by reflexivity.
  unfold bind at 1. assert (dict_ok n V []) as H0 by (intros v p []).
  pose proof (scan_triple rnd obj n Hrnd V (fun _ => False) fin_obj n_scan [] (length (r_evals s)) H0 s (conj Hs eq_refl)) as H.
  destruct (scan rnd obj n n_scan [] s) as [[d|e] s1]; [|destruct H as [[] _]]. destruct H as (H1 & H2 & H3 & H4). specialize (H4 Hscan).
  destruct (keep_best_ok n_keep None 0 d n V Hkeep H4 H3) as (d' & K). destruct (K s1) as (K1 & K2 & K3 & K4).
  unfold bind. rewrite K1. cbn [fst snd improves]. pose proof (count_below_le vals (dmin d')) as Hcb.
  destruct (sa_loop_ends fuel 0%nat None 1 d' s1) as (s' & E & Hlen); auto; try lia.
  exists s'. split; [exact E|]. rewrite H2 in Hlen. nia.
Qed.
End Annealing.
