(** * OptimFitProofs: a fit that runs an optimizer at every node is a fit with given candidates, and it ends. *)
From Coq Require Import Reals Lra.
From Verif Require Import Prelude Tree Perp RealOps Clf Reg Api Hyper Sphere SphereProofs OptProofs HyperSpec HyperProofs HyperApi
  Optim OptimProofs OptimDescent OptimLemmas OptimPairs OptimFit OptimSpec.
Local Open Scope nat_scope.

Section Generic.
Context {W C N O J E Y P S : Type}.
Variable G : geo W C N O J E.
Variable L : lik Y P S.
Variable post : R -> P -> list Y -> P.
Variable X : nat -> W.
Variable y : nat -> Y.
Variable n_dim : nat.

Lemma hfit_shift cands fuel : forall lvl p0 path pa rows,
  hfit G L post X y n_dim cands fuel lvl (p0 ++ path) pa rows = hfit G L post X y n_dim (fun p => cands (p0 ++ p)) fuel lvl path pa rows.
Proof.
  induction fuel as [|fuel IH]; intros lvl p0 path pa rows; [reflexivity|]. cbn [hfit].
  destruct (o_plane _) as [pl|]; [|reflexivity]. destruct (_ && _); [|reflexivity].
  rewrite <- !app_assoc, !IH. reflexivity.
Qed.

Lemma hfit_with_cands solve (Good : C -> Prop) (Rok : list nat -> Prop) : (forall rows f, Rok rows -> Rok (filter f rows)) ->
  (forall lvl prior rows ns cs, Rok rows -> solve lvl prior rows ns = Ok cs -> Forall Good cs) ->
  forall fuel lvl pa rows t, Rok rows -> hfit_with G L post X y n_dim solve fuel lvl pa rows = Ok t ->
  exists cands, (forall path, Forall Good (cands path)) /\ hfit G L post X y n_dim cands fuel lvl [] pa rows = Ok t.
Proof.
  intros HR Hg. induction fuel as [|fuel IH]; intros lvl pa rows t HRok; [discriminate|]. cbn [hfit_with].
  set (prior := l_prior L pa (length rows) n_dim). set (ns := l_no_split L lvl prior (map y rows)).
  destruct (solve lvl prior rows ns) as [cs|e] eqn:Es; [|discriminate]. cbn [rbind].
  pose proof (Hg _ _ _ _ _ HRok Es) as Hcs.
  destruct (o_plane (opt_run G L X y n_dim lvl prior rows ns cs)) as [pl|] eqn:Ep.
  2: { intros Et. exists (fun _ => cs). split; [auto|]. cbn [hfit]. fold prior. fold ns. rewrite Ep. exact Et. }
  set (r1 := filter _ rows). set (r2 := filter _ rows). destruct ((0 <? length r1) && (0 <? length r2)) eqn:El.
  2: { intros Et. exists (fun _ => cs). split; [auto|]. cbn [hfit]. fold prior. fold ns. rewrite Ep. fold r1 r2. rewrite El. exact Et. }
  assert (forall pr rc c, Rok rc ->
     (if (1 <? length rc) && l_many L (map y rc) then hfit_with G L post X y n_dim solve fuel (lvl + 1) (Some pr) rc
      else Ok (Leaf (mkInfo (Some pr) (lvl + 1) (length rc) None (l_post L prior (map y rc))))) = Ok c ->
     exists cands, (forall path, Forall Good (cands path)) /\
     (if (1 <? length rc) && l_many L (map y rc) then hfit G L post X y n_dim cands fuel (lvl + 1) [] (Some pr) rc
      else Ok (Leaf (mkInfo (Some pr) (lvl + 1) (length rc) None (l_post L prior (map y rc))))) = Ok c) as Hc.
  { intros pr rc c HRc. destruct ((1 <? length rc) && l_many L (map y rc)); [now apply IH|]. intros Ec. exists (fun _ => []). split; [constructor|exact Ec]. }
  destruct (if (1 <? length r1) && _ then _ else _) as [c1|e] eqn:E1; [|discriminate]. cbn [rbind].
  destruct (if (1 <? length r2) && _ then _ else _) as [c2|e] eqn:E2; [|discriminate]. cbn [rbind]. intros Et.
  destruct (Hc _ r1 _ (HR _ _ HRok) E1) as (k1 & G1 & F1). destruct (Hc _ r2 _ (HR _ _ HRok) E2) as (k2 & G2 & F2).
  set (cands := fun path : list bool => match path with [] => cs | false :: p => k1 p | true :: p => k2 p end).
  exists cands. split; [intros [|[|] p]; cbn; auto|].
  cbn [hfit app]. fold prior. fold ns. change (cands []) with cs. rewrite Ep. fold r1 r2. rewrite El.
  replace (hfit G L post X y n_dim cands fuel (lvl + 1) [false] (Some (post 0%R prior (map y r1))) r1)
    with (hfit G L post X y n_dim k1 fuel (lvl + 1) [] (Some (post 0%R prior (map y r1))) r1)
    by (symmetry; exact (hfit_shift cands fuel (lvl + 1) [false] [] _ r1)).
  replace (hfit G L post X y n_dim cands fuel (lvl + 1) [true] (Some (post 0%R prior (map y r2))) r2)
    with (hfit G L post X y n_dim k2 fuel (lvl + 1) [] (Some (post 0%R prior (map y r2))) r2)
    by (symmetry; exact (hfit_shift cands fuel (lvl + 1) [true] [] _ r2)).
  rewrite F1, F2. exact Et.
Qed.

(** If the optimizer stops at every node, so does the fit. *)
Hypothesis excl : forall nrm org x, g_front G nrm org x = true -> g_back G nrm org x = false.
Lemma hfit_with_ends (solve : nat -> nat -> P -> list nat -> S -> res (list C)) (Rok : list nat -> Prop) :
  (forall rows f, Rok rows -> filter f rows <> [] -> Rok (filter f rows)) ->
  (forall lvl prior rows ns, Rok rows -> exists bound cs, forall k, bound <= k -> solve k lvl prior rows ns = Ok cs) ->
  forall fuel lvl pa rows, length rows < fuel -> Rok rows ->
  exists bound t, forall k, bound <= k -> hfit_with G L post X y n_dim (solve k) fuel lvl pa rows = Ok t.
Proof.
  intros HR Hs. induction fuel as [|fuel IH]; intros lvl pa rows Hl HRok; [lia|]. cbn [hfit_with].
  set (prior := l_prior L pa (length rows) n_dim). set (ns := l_no_split L lvl prior (map y rows)).
  destruct (Hs lvl prior rows ns HRok) as (b0 & cs & E0).
  destruct (o_plane (opt_run G L X y n_dim lvl prior rows ns cs)) as [pl|] eqn:Ep.
  2: { eexists b0, _. intros k Hk. rewrite E0 by auto. cbn [rbind]. rewrite Ep. reflexivity. }
  set (r1 := filter (fun i => g_back G (p_normal pl) (p_origin pl) (X i)) rows). set (r2 := filter (fun i => g_front G (p_normal pl) (p_origin pl) (X i)) rows).
  destruct ((0 <? length r1) && (0 <? length r2)) eqn:El.
  2: { eexists b0, _. intros k Hk. rewrite E0 by auto. cbn [rbind]. rewrite Ep. fold r1 r2. rewrite El. reflexivity. }
  assert (length r1 + length r2 <= length rows) as Hsum by (apply filter_disjoint; intros; eapply excl; eauto).
  apply andb_true_iff in El as El'. destruct El' as [L1 L2]. apply Nat.ltb_lt in L1, L2.
  assert (forall pr rc, length rc < length rows -> Rok rc -> exists b c, forall k, b <= k ->
     (if (1 <? length rc) && l_many L (map y rc) then hfit_with G L post X y n_dim (solve k) fuel (lvl + 1) (Some pr) rc
      else Ok (Leaf (mkInfo (Some pr) (lvl + 1) (length rc) None (l_post L prior (map y rc))))) = Ok c) as Hc.
  { intros pr rc Hrc HRc. destruct ((1 <? length rc) && l_many L (map y rc)); [apply IH; [lia|auto]|]. exists 0. eexists. intros k _. reflexivity. }
  destruct (Hc (post 0%R prior (map y r1)) r1) as (b1 & c1 & E1); [lia|apply HR; [auto|]; fold r1; intros Ee; rewrite Ee in L1; cbn in L1; lia|].
  destruct (Hc (post 0%R prior (map y r2)) r2) as (b2 & c2 & E2); [lia|apply HR; [auto|]; fold r2; intros Ee; rewrite Ee in L2; cbn in L2; lia|].
  eexists (Nat.max b0 (Nat.max b1 b2)), _. intros k Hk. rewrite E0 by lia. cbn [rbind]. rewrite Ep. fold r1 r2. rewrite El, E1, E2 by lia. cbn [rbind]. reflexivity.
Qed.
End Generic.

(** ** More fuel does not change a result *)
Definition refines {A} (m m' : M A) : Prop := forall s a s', m s = (Ok a, s') -> m' s = (Ok a, s').
Lemma refines_refl {A} (m : M A) : refines m m.
Proof. intros s a s' H. exact H. Qed.
Lemma refines_bind {A B} (m m' : M A) (k k' : A -> M B) : refines m m' -> (forall a, refines (k a) (k' a)) -> refines (bind m k) (bind m' k').
Proof.
  intros Hm Hk s b s'. unfold bind. destruct (m s) as [[a|e] s1] eqn:E; [|discriminate]. rewrite (Hm _ _ _ E). apply Hk.
Qed.
Lemma refines_raise {A} e (m : M A) : refines (raise e) m.
Proof. intros s a s' H. discriminate. Qed.
Lemma refines_for {A S} (l : list A) (b b' : A -> S -> M S) : (forall a x, refines (b a x) (b' a x)) -> forall x, refines (for_each l b x) (for_each l b' x).
Proof. intros H. induction l as [|a l IH]; intros x; cbn [for_each]; [apply refines_refl|]. apply refines_bind; auto. Qed.

Lemma sa_loop_more rnd obj n n_scan n_keep spread fuel : forall more idle best f cands, fuel <= more ->
  refines (sa_loop rnd obj n n_scan n_keep spread fuel idle best f cands) (sa_loop rnd obj n n_scan n_keep spread more idle best f cands).
Proof.
  induction fuel as [|fuel IH]; intros more idle best f cands Hm; [apply refines_raise|]. destruct more as [|more]; [lia|]. cbn [sa_loop].
  destruct (idle <? 50); [|apply refines_refl]. destruct cands as [|e c];
    (apply refines_bind; [apply refines_refl|]; intros d; apply refines_bind; [apply refines_refl|]; intros r; apply IH; lia).
Qed.
Lemma find_gradient_more obj n fuel : forall more value delta c, fuel <= more ->
  refines (find_gradient obj n fuel value delta c) (find_gradient obj n more value delta c).
Proof.
  induction fuel as [|fuel IH]; intros more value delta c Hm; [apply refines_raise|]. destruct more as [|more]; [lia|]. cbn [find_gradient].
  apply refines_bind; [apply refines_refl|]. intros [g|]; [apply refines_refl|]. destruct (Rgeb _ _); [apply refines_refl|]. apply IH. lia.
Qed.
Lemma line_search_more obj fuel : forall more lambda c g bp bv, fuel <= more ->
  refines (line_search obj fuel lambda c g bp bv) (line_search obj more lambda c g bp bv).
Proof.
  induction fuel as [|fuel IH]; intros more lambda c g bp bv Hm; [apply refines_raise|]. destruct more as [|more]; [lia|]. cbn [line_search].
  apply refines_bind; [apply refines_refl|]. intros v. destruct (Rltb _ _); [|apply refines_refl]. apply IH. lia.
Qed.
Lemma descend_more obj n n_keep fuel more start cands : fuel <= more -> refines (descend obj n n_keep fuel start cands) (descend obj n n_keep more start cands).
Proof.
  intros Hm. unfold descend. apply refines_for. intros i x. apply refines_bind; [now apply find_gradient_more|].
  intros [gd|]; [|apply refines_refl]. apply refines_bind; [now apply line_search_more|]. intros b. apply refines_refl.
Qed.
Lemma gd_loop_more' rnd obj n n_init n_keep fuel : forall more inner inner' idle best k cands, fuel <= more -> inner <= inner' ->
  refines (gd_loop rnd obj n n_init n_keep fuel inner idle best k cands) (gd_loop rnd obj n n_init n_keep more inner' idle best k cands).
Proof.
  induction fuel as [|fuel IH]; intros more inner inner' idle best k cands Hm Hi; [apply refines_raise|]. destruct more as [|more]; [lia|]. cbn [gd_loop].
  destruct (idle <? 3); [|apply refines_refl]. destruct cands as [|e c].
  - apply refines_bind; [apply refines_refl|]. intros d. apply refines_bind; [apply refines_refl|]. intros r. apply IH; lia.
  - apply refines_bind; [now apply descend_more|]. intros d. apply refines_bind; [apply refines_refl|]. intros r. apply IH; lia.
Qed.

(** ** The optimizers *)
Lemma all_evals {A} (Q : list R -> Prop) (m : A -> unit -> M unit) l : (forall a s, Forall Q (r_evals s) -> Forall Q (r_evals (snd (m a tt s)))) ->
  forall s, Forall Q (r_evals s) -> Forall Q (r_evals (snd (for_each l m tt s))).
Proof.
  intros H. induction l as [|a l IH]; intros s Hs; cbn [for_each]; [exact Hs|]. unfold bind. specialize (H a s Hs).
  destruct (m a tt s) as [[[]|e] s1]; [now apply IH|exact H].
Qed.
Lemma for_ok {A} (m : A -> unit -> M unit) l : (forall a s, exists s', m a tt s = (Ok tt, s')) -> forall s, exists s', for_each l m tt s = (Ok tt, s').
Proof.
  intros H. induction l as [|a l IH]; intros s; cbn [for_each]; [now exists s|]. unfold bind. destruct (H a s) as (s1 & ->). apply IH.
Qed.

Lemma random_points obj nrm n m : forall p, In p (points (random_solve obj nrm n m start_state)) -> length p = n.
Proof.
  intros p Hp. unfold points in Hp. apply in_rev in Hp. revert p Hp. apply Forall_forall. unfold random_solve. apply all_evals; [|constructor].
  intros a s Hs. unfold bind, evaluate. destruct (obj _); cbn; constructor; auto; now rewrite map_length, seq_length.
Qed.

Section Node.
Context {P : Type}.
Variables (L : lik R P R) (prec : R) (srt : (nat -> R) -> nat -> list nat) (X : nat -> list R) (y : nat -> R) (n_dim : nat).
Variables (o : optimizer).
Hypothesis Ho : proper o.
Notation solve := (solve_node L prec srt X y n_dim o).

Lemma sphere_length c : Forall (fun u => (0 <= u <= 1)%R) c -> 0 < length c -> exists v, sphere true c = Ok v /\ length v = 1 + length c.
Proof.
  intros Hc Hl. destruct (sphere_unit true c Hc) as (_ & v & E & Hv & _); [intros ->; cbn in Hl; lia|]. now exists v.
Qed.

(** The candidates give vectors of the right length. *)
Lemma solve_good fuel lvl prior rows ns cs : (in_hypercube o = true -> 2 <= n_dim) -> (forall i, In i rows -> length (X i) = n_dim) -> 
  solve fuel lvl prior rows ns = Ok cs -> Forall (fun c => length (normal_of o c) = n_dim) cs.
Proof.
  intros H2 HX. unfold solve_node. set (r := run_optimizer _ _ _ _ _ _ _ _). destruct (fst r) as [u|e]; [|discriminate]. cbn [rbind]. intros H. inversion H; subst cs. clear H.
  apply Forall_forall. intros c Hc. unfold r in Hc. clear r. change (rev (r_evals (snd ?a))) with (points a) in Hc.
  assert (forall p, length p = n_dim - 1 /\ Forall (fun u => (0 <= u <= 1)%R) p -> in_hypercube o = true -> length (normal_of o p) = n_dim) as Hcube.
  { intros p [P1 P2] Hi. unfold normal_of. rewrite Hi. specialize (H2 Hi). destruct (sphere_length p P2) as (v & -> & Hv); lia. }
  destruct o as [rnd n_scan n_keep spread|rnd n_init n_keep|phi n|nrm n_mc|rnd n_mc]; cbn [run_optimizer proper] in *.
  - apply Hcube; [|reflexivity]. refine (sa_points _ _ _ _ _ _ _ _ _ Hc). apply Ho.
  - apply Hcube; [|reflexivity]. refine (gd_points _ _ _ _ _ _ _ _ Hc). apply Ho.
  - apply Hcube; [|reflexivity]. exact (quasi_points _ phi (n_dim - 1) n c Hc).
  - unfold normal_of. cbn [in_hypercube]. exact (random_points _ nrm n_dim n_mc c Hc).
  - unfold normal_of. cbn [in_hypercube]. destruct (two_point_points rnd _ (map X rows) (map y rows) Ho n_mc fuel c Hc) as (i & j & a & b & Hi & Hj & _ & Hv & _).
    assert (forall i a, nth_error (map y rows) i = Some a -> length (nth i (map X rows) []) = n_dim) as Hlen.
    { clear -HX. intros i a Hi. rewrite nth_error_map in Hi. destruct (nth_error rows i) as [q|] eqn:E; [|discriminate].
      erewrite nth_error_nth; [|rewrite nth_error_map, E; reflexivity]. apply HX. eapply nth_error_In; eauto. }
    assert (length (map2 Rminus (nth j (map X rows) []) (nth i (map X rows) [])) = n_dim) as Hd.
    { apply map2_length; eauto. }
    destruct Hv as [-> | ->]; [exact Hd|]. now rewrite map_length.
Qed.

(** The optimizer stops; more fuel changes nothing. *)
Lemma solve_ends lvl prior rows ns : sorts Rleb srt -> (in_hypercube o = true -> 2 <= n_dim) ->
  (forall rnd n_mc, o = RandomTwoPoint rnd n_mc -> fair rnd /\ forall i, In i rows -> exists c : nat, y i = INR c) ->
  exists bound cs, forall k, bound <= k -> solve k lvl prior rows ns = Ok cs.
Proof.
  intros Hs H2 Htp. unfold solve_node. set (cube := cube_obj _ _ _ _ _ _ _ _ _ _). set (vec := vector_obj _ _ _ _ _ _ _ _ _ _).
  assert (exists bound s', forall k, bound <= k -> run_optimizer o cube vec n_dim (map X rows) (map y rows) k (mkR 0 []) = (Ok tt, s')) as (b & s' & H).
  2: { exists b, (rev (r_evals s')). intros k Hk. rewrite (H k Hk). reflexivity. }
  destruct o as [rnd n_scan n_keep spread|rnd n_init n_keep|phi n|nrm n_mc|rnd n_mc]; cbn [run_optimizer proper in_hypercube] in *.
  - specialize (H2 eq_refl). destruct Ho as (Hr & H0 & H1).
    destruct (sa_terminates L prec srt X y n_dim lvl prior rows ns (n_dim - 1) Hs ltac:(lia)) as (b & H).
    destruct (H rnd n_scan n_keep spread b Hr H0 H1 (le_n b)) as [E _]. fold cube in E. unfold start_state in E.
    destruct (sa_solve rnd cube (n_dim - 1) n_scan n_keep spread b (mkR 0 [])) as [[[]|e] s'] eqn:Er; [|discriminate E].
    exists b, s'. intros k Hk. unfold sa_solve in *. exact (sa_loop_more _ _ _ _ _ _ b k _ _ _ _ Hk _ _ _ Er).
  - specialize (H2 eq_refl). destruct Ho as (Hr & H0 & H1).
    destruct (gd_terminates L prec srt X y n_dim lvl prior rows ns (n_dim - 1) Hs ltac:(lia) rnd n_init n_keep Hr H0 H1) as (b & H).
    specialize (H b (le_n b)). fold cube in H. unfold start_state in H.
    destruct (gd_solve rnd cube (n_dim - 1) n_init n_keep b (mkR 0 [])) as [[[]|e] s'] eqn:Er; [|discriminate H].
    exists b, s'. intros k Hk. unfold gd_solve in *. exact (gd_loop_more' _ _ _ _ _ b k b k _ _ _ _ Hk Hk _ _ _ Er).
  - specialize (H2 eq_refl). 
    assert (forall l s, inside (n_dim - 1) s -> exists s', for_each (A := nat) l (fun i _ => match n_dim - 1 with 0 => raise ValueError | _ => _ <- evaluate cube (r2_point phi (n_dim - 1) i) ;; ret tt end) tt s = (Ok tt, s')) as H.
    { induction l as [|i l IH]; intros s Hi; cbn [for_each]; [now exists s|]. unfold bind at 1. destruct (n_dim - 1) as [|m] eqn:Em; [lia|].
      assert (cube_in : Forall (fun u => (0 <= u <= 1)%R) (r2_point phi (Datatypes.S m) i)).
      { apply Forall_forall. intros u Hu. apply in_map_iff in Hu as (j & <- & _). match goal with |- (0 <= mod1 ?x <= 1)%R => pose proof (mod1_range x) end. lra. }
      assert (length (r2_point phi (Datatypes.S m) i) = Datatypes.S m) as Hl by (unfold r2_point; now rewrite map_length, seq_length).
      destruct (cube_obj_values L prec srt X y n_dim lvl prior rows ns (r2_point phi (Datatypes.S m) i) Hs) as (v & Ev & _); [intros E0; rewrite E0 in Hl; discriminate|exact cube_in|].
      fold cube in Ev. unfold bind, evaluate, ret. rewrite Ev. apply IH. constructor; [now split|exact Hi]. }
    destruct (H (seq 0 n) (mkR 0 [])) as (s' & E); [constructor|]. exists 0, s'. intros k _. exact E.
  - destruct (for_ok (A := nat) (fun i _ => _ <- evaluate vec (map (fun k => nrm (i * n_dim + k)) (seq 0 n_dim)) ;; ret tt) (seq 0 n_mc)) with (s := mkR 0 []) as (s' & E).
    { intros a s. unfold bind, evaluate, vec, vector_obj, ret. now eexists. }
    exists 0, s'. intros k _. exact E.
  - destruct (Htp rnd n_mc eq_refl) as [Hfair Hy]. 
    assert (Forall (fun a => exists z, a = IZR z) (map y rows)) as Hi.
    { apply Forall_forall. intros a Ha. apply in_map_iff in Ha as (i & <- & Hi). destruct (Hy i Hi) as (c & ->). exists (Z.of_nat c). apply INR_IZR_INZ. }
    assert ((forall a b, In a (map y rows) -> In b (map y rows) -> a = b) \/ two_values (map y rows)) as [Hc|Htv].
    { destruct (Exists_dec (fun a => Exists (fun b => a <> b) (map y rows)) (map y rows)) as [He|He].
      - intros a. apply Exists_dec. intros b. destruct (Req_EM_T a b); [now right|now left].
      - right. apply Exists_exists in He as (a & Ha & He). apply Exists_exists in He as (b & Hb & Hab). now exists a, b.
      - left. intros a b Ha Hb. destruct (Req_EM_T a b) as [|Hab]; [auto|]. exfalso. apply He. apply Exists_exists. exists a. split; [auto|].
        apply Exists_exists. now exists b. }
    + exists 0, (mkR 0 []). intros k _. now apply two_point_constant.
    + destruct Htv as (a & b & Ha & Hb & Hab).
      apply in_map_iff in Ha as (i & Ea & Hia). apply in_map_iff in Hb as (j & Eb & Hjb). destruct (Hy i Hia) as (ca & Eca). destruct (Hy j Hjb) as (cb & Ecb).
      assert (map y rows <> []) as Hne by (intros E0; destruct rows; [destruct Hia|discriminate]).
      destruct (n_classes_spec (map y rows)) as (m & M1 & M2 & M3); auto.
      assert (In (IZR (Z.of_nat ca)) (map y rows)) as Ina by (rewrite <- INR_IZR_INZ, <- Eca; now apply in_map).
      assert (In (IZR (Z.of_nat cb)) (map y rows)) as Inb by (rewrite <- INR_IZR_INZ, <- Ecb; now apply in_map).
      apply (two_point_ends rnd vec (map X rows) (map y rows) Ho); [|intros v; eexists; reflexivity|auto].
      intros k. destruct (Hfair (n_classes (map y rows)) (Z.of_nat ca) (Z.of_nat cb) k) as (K & HK & HD);
        [specialize (M2 _ Ina); lia|specialize (M2 _ Inb); lia|intros E; apply Hab; rewrite <- Ea, <- Eb, Eca, Ecb; f_equal; lia|].
      exists K, (Z.of_nat ca), (Z.of_nat cb). split; [auto|]. split; [intros E; apply Hab; rewrite <- Ea, <- Eb, Eca, Ecb; f_equal; lia|].
      split; [lia|]. auto.
Qed.
End Node.

(** ** The whole fit *)
Section Whole.
Context {P : Type}.
Variables (L : lik R P R) (post : R -> P -> list R -> P) (same : ninfo P -> ninfo P -> bool).
Variables (srt : (nat -> R) -> nat -> list nat) (o : optimizer) (h : hyper P) (d : hset (list R) R).
Hypothesis Ho : proper o.
Hypothesis Hd : hset_ok d.
Hypothesis H2 : in_hypercube o = true -> 2 <= hs_dim d.

Lemma opt_fit_cands fuel t : hyper_fit_opt L post same srt o fuel h d = Ok t ->
  exists cands, cands_ok (normal_of o) cands (hs_dim d) /\
    hyper_fit (geo_R (normal_of o) (h_prec h) srt) L post same (h_prune h) 0 (h_prior h) cands d = Ok t.
Proof.
  unfold hyper_fit_opt, hyper_fit. destruct (hfit_with _ _ _ _ _ _ _ _ _ _ _) as [u|e] eqn:E; [|discriminate].
  apply (hfit_with_cands _ _ _ _ _ _ _ (fun c => length (normal_of o c) = hs_dim d) (Forall (fun i => i < hs_n d))) in E as (cands & Hc & Hf).
  - exists cands. split; [|rewrite Hf; auto]. intros path c Hin. specialize (Hc path). rewrite Forall_forall in Hc. auto.
  - intros rows f Hr. apply Forall_forall. intros i Hi. apply filter_In in Hi as [Hi _]. rewrite Forall_forall in Hr. auto.
  - intros lvl prior rows ns cs Hr. apply solve_good; auto. intros i Hi. rewrite Forall_forall in Hr. apply Hd. auto.
  - apply Forall_forall. intros i Hi. apply in_seq in Hi. lia.
Qed.

Lemma opt_fit_ends : sorts Rleb srt ->
  (forall rnd n_mc, o = RandomTwoPoint rnd n_mc -> fair rnd /\ forall i, i < hs_n d -> exists c : nat, hs_y d i = INR c) ->
  exists bound t, forall fuel, bound <= fuel -> hyper_fit_opt L post same srt o fuel h d = Ok t.
Proof.
  intros Hs Htp. unfold hyper_fit_opt.
  destruct (hfit_with_ends (geo_R (normal_of o) (h_prec h) srt) L post (hs_X d) (hs_y d) (hs_dim d) (geo_R_excl' _ _ _)
    (fun k => solve_node L (h_prec h) srt (hs_X d) (hs_y d) (hs_dim d) o k) (Forall (fun i => i < hs_n d))) with (fuel := Datatypes.S (hs_n d)) (lvl := 0) (pa := h_prior h) (rows := seq 0 (hs_n d)) as (b & t & H).
  - intros rows f Hr _. apply Forall_forall. intros i Hi. apply filter_In in Hi as [Hi _]. rewrite Forall_forall in Hr. auto.
  - intros lvl prior rows ns Hr. rewrite Forall_forall in Hr. apply solve_ends; auto. intros rnd n_mc E. destruct (Htp rnd n_mc E). auto.
  - rewrite seq_length. lia.
  - apply Forall_forall. intros i Hi. apply in_seq in Hi. lia.
  - destruct (h_prune h) eqn:Ep.
    + exists b, (Spec.prune_bu same t). intros fuel Hf. rewrite H by auto. cbn [rbind]. unfold prune. now apply PruneProofs.prune_fuel_correct.
    + exists b, t. intros fuel Hf. rewrite H by auto. reflexivity.
Qed.
End Whole.

(** One feature. *)
Lemma opt_fit_one_feature {P} (L : lik R P R) post same srt o fuel (h : hyper P) (d : hset (list R) R) :
  in_hypercube o = true -> hs_dim d = 1 -> 0 < fuel ->
  match o with SimulatedAnnealing _ n _ _ | GradientDescent _ n _ | QuasiRandom _ n => 0 < n | _ => True end ->
  hyper_fit_opt L post same srt o fuel h d = Err ValueError.
Proof.
  intros Hi Hd Hf Hn. unfold hyper_fit_opt. cbn [hfit_with]. unfold solve_node at 1. rewrite Hd.
  set (cube := cube_obj _ _ _ _ _ _ _ _ _ _). 
  match goal with |- context [fst ?r] => assert (fst r = Err ValueError) as -> end; [|reflexivity].
  destruct o as [rnd n_scan n_keep spread|rnd n_init n_keep|phi n|nrm n_mc|rnd n_mc]; try discriminate; cbn [run_optimizer Nat.sub].
  - now apply sa_one_feature.
  - now apply gd_one_feature.
  - now apply quasi_one_feature.
Qed.

Lemma clf_opt_fit srt o (h : hyper (list R)) d : sorts Rleb srt -> proper o -> hset_ok d -> usable o d ->
  exists bound t cands, (forall fuel, bound <= fuel -> hclf_fit_opt srt o fuel h d = Ok t) /\
    cands_ok (normal_of o) cands (hs_dim d) /\ hclf_fit (normal_of o) srt cands h d = Ok t.
Proof.
  intros Hs Ho Hd [H2 Htp]. destruct (opt_fit_ends (clf_lik (h_pp h) (h_delta h)) clf_posterior clf_same srt o h d Ho H2 Hs Htp) as (b & t & H).
  destruct (opt_fit_cands _ _ _ _ _ _ _ Ho Hd H2 b t (H b (le_n b))) as (cands & Hc & Hf). now exists b, t, cands.
Qed.
Lemma reg_opt_fit srt o (h : hyper ng) d : sorts Rleb srt -> proper o -> hset_ok d -> usable o d ->
  exists bound t cands, (forall fuel, bound <= fuel -> hreg_fit_opt srt o fuel h d = Ok t) /\
    cands_ok (normal_of o) cands (hs_dim d) /\ hreg_fit (normal_of o) srt cands h d = Ok t.
Proof.
  intros Hs Ho Hd [H2 Htp]. destruct (opt_fit_ends (reg_lik (h_pp h) (h_delta h)) reg_posterior reg_same srt o h d Ho H2 Hs Htp) as (b & t & H).
  destruct (opt_fit_cands _ _ _ _ _ _ _ Ho Hd H2 b t (H b (le_n b))) as (cands & Hc & Hf). now exists b, t, cands.
Qed.
