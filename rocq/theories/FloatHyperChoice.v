(** * FloatHyperChoice: which plane a float64 hyperplane fit chooses. *)
From Coq Require Import Reals Lra Permutation.
From Flocq Require Import Core BinarySingleNaN.
From Verif Require Import Prelude Lists Tree Perp RealOps Api Hyper Spec FitProofs NodeFacts SplitFacts HyperExec HyperProofs HyperLemmas
  FloatFeat FloatReg FloatSum FloatNG FloatClf FloatClfSum FloatHyper FloatHyperDot FloatHyperFit FloatHyperEx.
Local Open Scope R_scope.

(** ** The order of the floats that are not NaN *)
Definition fkey (a : float64) : R := match a with B754_infinity s => if s then - b2 1024 else b2 1024 | _ => B2R a end.
Lemma key_finite (a : float64) : is_finite a = true -> Rabs (fkey a) < b2 1024 /\ fkey a = B2R a.
Proof.
  intros Fa. assert (E : fkey a = B2R a) by (destruct a; try discriminate; reflexivity). rewrite E. split; [|reflexivity]. apply abs_B2R_lt_emax.
Qed.
Ltac by_key := match goal with |- ?x = _ => first [change x with true|change x with false] end; symmetry;
  first [apply Rlt_bool_true; lra|apply Rlt_bool_false; lra|apply Rle_bool_true; lra|apply Rle_bool_false; lra|apply Req_bool_true; lra|apply Req_bool_false; lra].
Lemma key_cmp (a b : float64) : is_nan a = false -> is_nan b = false -> Bltb a b = Rlt_bool (fkey a) (fkey b) /\ Bleb a b = Rle_bool (fkey a) (fkey b) /\ Beqb a b = Req_bool (fkey a) (fkey b).
Proof.
  intros Na Nb. pose proof (b2_pos 1024) as P.
  destruct (is_finite a) eqn:Fa; destruct (is_finite b) eqn:Fb.
  - destruct (key_finite a Fa) as [_ ->]. destruct (key_finite b Fb) as [_ ->]. rewrite Bltb_correct, Bleb_correct, Beqb_correct by auto. auto.
  - destruct (key_finite a Fa) as [Ha _]. apply Rabs_def2 in Ha. revert Ha. generalize (fkey a). intros k Ha. destruct b as [|[]| |]; try discriminate; cbn [fkey]; revert Ha P; generalize (b2 1024); intros M Ha P;
    destruct a as [|[]| |[]]; try discriminate; (split; [|split]); by_key.
  - destruct (key_finite b Fb) as [Hb _]. apply Rabs_def2 in Hb. revert Hb. generalize (fkey b). intros k Hb. destruct a as [|[]| |]; try discriminate; cbn [fkey]; revert Hb P; generalize (b2 1024); intros M Hb P;
    destruct b as [|[]| |[]]; try discriminate; (split; [|split]); by_key.
  - destruct a as [|[]| |]; try discriminate; destruct b as [|[]| |]; try discriminate; cbn [fkey]; revert P; generalize (b2 1024); intros M P; (split; [|split]); by_key.
Qed.
Lemma cmp_nan (a b : float64) : is_nan a = true \/ is_nan b = true -> Bltb a b = false /\ Bleb a b = false /\ Beqb a b = false.
Proof. intros [H|H]; [destruct a; try discriminate; auto|destruct b; try discriminate; destruct a as [|[]| |[]]; auto]. Qed.
Lemma lt_inv (a b : float64) : Bltb a b = true -> is_nan a = false /\ is_nan b = false /\ fkey a < fkey b.
Proof.
  intros H. destruct (is_nan a) eqn:Na; [destruct (cmp_nan a b (or_introl Na)) as [K _]; congruence|].
  destruct (is_nan b) eqn:Nb; [destruct (cmp_nan a b (or_intror Nb)) as [K _]; congruence|].
  destruct (key_cmp a b Na Nb) as [K _]. rewrite K in H. destruct (Rlt_bool_spec (fkey a) (fkey b)); [auto|discriminate].
Qed.
Lemma le_inv (a b : float64) : Bleb a b = true -> is_nan a = false /\ is_nan b = false /\ fkey a <= fkey b.
Proof.
  intros H. destruct (is_nan a) eqn:Na; [destruct (cmp_nan a b (or_introl Na)) as (_ & K & _); congruence|].
  destruct (is_nan b) eqn:Nb; [destruct (cmp_nan a b (or_intror Nb)) as (_ & K & _); congruence|].
  destruct (key_cmp a b Na Nb) as (_ & K & _). rewrite K in H. destruct (Rle_bool_spec (fkey a) (fkey b)); [auto|discriminate].
Qed.
Lemma eq_inv (a b : float64) : Beqb a b = true -> is_nan a = false /\ is_nan b = false /\ fkey a = fkey b.
Proof.
  intros H. destruct (is_nan a) eqn:Na; [destruct (cmp_nan a b (or_introl Na)) as (_ & _ & K); congruence|].
  destruct (is_nan b) eqn:Nb; [destruct (cmp_nan a b (or_intror Nb)) as (_ & _ & K); congruence|].
  destruct (key_cmp a b Na Nb) as (_ & _ & K). rewrite K in H. destruct (Req_bool_spec (fkey a) (fkey b)); [auto|discriminate].
Qed.
(** Not smaller: by the keys if both are numbers. *)
Lemma not_lt (a b : float64) : (is_nan a = false -> is_nan b = false -> fkey b <= fkey a) <-> Bltb a b = false.
Proof.
  destruct (is_nan a) eqn:Na; [destruct (cmp_nan a b (or_introl Na)) as [K _]; split; [auto|discriminate]|].
  destruct (is_nan b) eqn:Nb; [destruct (cmp_nan a b (or_intror Nb)) as [K _]; split; [auto|discriminate]|].
  destruct (key_cmp a b Na Nb) as [K _]. rewrite K. split.
  - intros H. apply Rlt_bool_false. auto.
  - intros H _ _. destruct (Rlt_bool_spec (fkey a) (fkey b)); [discriminate|assumption].
Qed.
Lemma not_le (a b : float64) : Bleb a b = false -> is_nan a = false -> is_nan b = false -> fkey b < fkey a.
Proof. intros H Na Nb. destruct (key_cmp a b Na Nb) as (_ & K & _). rewrite K in H. destruct (Rle_bool_spec (fkey a) (fkey b)); [discriminate|assumption]. Qed.
Lemma argmax_numbers l : l <> [] -> Forall (fun a : float64 => is_nan a = false) l ->
  exists s, nth_error l (f_argmax l) = Some s /\ forall s', In s' l -> Bltb s s' = false.
Proof.
  intros Hne H. assert (E : f_argmax l = argmax Rgtb (map fkey l)).
  { symmetry. unfold f_argmax. apply (argmax_map _ Rgtb fkey (fun a => is_nan a = false) l H). intros a b Na Nb. rewrite Na. cbn [andb orb].
    destruct (key_cmp b a Nb Na) as [-> _]. unfold Rgtb, Rltb. destruct (Rlt_bool_spec (fkey b) (fkey a)); destruct Rlt_dec; auto; lra. }
  destruct (argmax_R (map fkey l)) as [H1 H2]; [destruct l; [congruence|discriminate]|]. rewrite map_length in *. rewrite E. set (j := argmax Rgtb (map fkey l)) in *.
  destruct (nth_error l j) as [s|] eqn:Es; [|apply nth_error_None in Es; lia]. exists s. split; [reflexivity|]. intros s' Hs. apply In_nth_error in Hs as (i & Hi).
  apply not_lt. intros _ _. assert (Li : (i < length l)%nat) by (apply nth_error_Some; congruence). destruct (H2 i Li) as [K _].
  rewrite (nth_error_nth (map fkey l) i 0 (map_nth_error fkey i l Hi)), (nth_error_nth (map fkey l) j 0 (map_nth_error fkey j l Es)) in K. exact K.
Qed.

(** ** The choice at a node *)
Section Choice.
Variables (fdot fmv : list float64 -> list float64 -> float64) (fsum : list float64 -> float64).
Context {C Y P : Type}.
Variable pre : C -> list float64.
Variable prec : float64.
Variable srt : (nat -> float64) -> nat -> list nat.
Variable L : lik Y P float64.
Hypothesis Hge : forall a b, l_ge L a b = Bleb b a.
Hypothesis Hgt : forall a b, l_gt L a b = Bltb b a.
Hypothesis Harg : forall l, l_argmax L l = f_argmax l.
Hypothesis Hlen : forall lvl p nd ys sp, length (l_split L lvl p nd ys sp) = length sp.
Variable X : nat -> list float64.
Variable y : nat -> Y.
Variable n_dim : nat.
Notation G := (geo_f fdot fmv fsum pre prec srt).

Section Node.
Variables (lvl : nat) (prior : P) (rows : list nat) (ns : float64).
(** The computed projections of the rows, their order, the admissible positions and the scores of a candidate; the plane at a position
    and the sum of the distances of the rows to a plane. *)
Definition projection (c : C) (i : nat) : float64 := fmv (X i) (f_unit fdot (pre c)).
Definition order64 (c : C) : list nat := srt (fun k => projection c (nth k rows 0%nat)) (length rows).
Definition positions64 (c : C) : list nat := split_positions (fun a b => Bltb prec (Babs (f_sub b a))) (map (projection c) rows).
Definition scores64 (c : C) : list float64 := l_split L lvl prior n_dim (map (fun k => y (nth k rows 0%nat)) (order64 c)) (positions64 c).
Definition plane_at (c : C) (k : nat) : plane (list float64) (list float64) :=
  mkPlane (f_unit fdot (pre c)) (map2 (fun a b => f_mul f_half (f_add a b)) (X (nth (nth (k - 1) (order64 c) 0%nat) rows 0%nat)) (X (nth (nth k (order64 c) 0%nat) rows 0%nat))).
Definition total_distance (pl : plane (list float64) (list float64)) : float64 :=
  fsum (map (fun i => Babs (f_sub (fmv (X i) (p_normal pl)) (fdot (p_normal pl) (p_origin pl)))) rows).
(** [c] offers the score [s] with the plane [pl]: the first maximum of its scores ([np.argmax]). *)
Definition offers (c : C) (s : float64) (pl : plane (list float64) (list float64)) : Prop :=
  exists k, nth_error (scores64 c) (f_argmax (scores64 c)) = Some s /\ nth_error (positions64 c) (f_argmax (scores64 c)) = Some k /\ pl = plane_at c k.
(** The chosen plane: offered by a candidate, as good as the leaf, no candidate offers more, and none with the same score is farther from the rows. *)
Definition best_plane (cs : list C) (pl : plane (list float64) (list float64)) (b : float64) : Prop :=
  (exists c, In c cs /\ offers c b pl) /\ Bleb ns b = true /\
  forall c s pl', In c cs -> offers c s pl' -> Bltb b s = false /\ (Beqb s b = true -> Bltb (total_distance pl) (total_distance pl') = false).

Definition st_ok (cs : list C) (st : hopt (list float64) (list float64) float64 float64) : Prop :=
  (forall c s pl, In c cs -> offers c s pl -> Bltb (o_best st) s = false /\ (Beqb s (o_best st) = true -> Bltb (o_dist st) (total_distance pl) = false)) /\
  match o_plane st with
  | None => o_best st = ns
  | Some pl => (exists c, In c cs /\ offers c (o_best st) pl) /\ Bleb ns (o_best st) = true /\ o_dist st = total_distance pl
  end.
Lemma offers_det c s s' pl pl' : offers c s pl -> offers c s' pl' -> s = s' /\ pl = pl'.
Proof. intros (k & E1 & E2 & ->) (k' & E1' & E2' & ->). split; congruence. Qed.

Lemma compute_ok cs st c : st_ok cs st -> st_ok (c :: cs) (fst (opt_compute G L X y n_dim lvl prior rows ns st c)).
Proof.
  intros [HA HB]. unfold opt_compute. cbn [g_unit g_proj g_argsort g_gap g_mid g_dist g_far geo_f].
  fold (projection c). change (fun i => fmv (X i) (f_unit fdot (pre c))) with (projection c). fold (positions64 c).
  change (srt (fun k => fmv (X (nth k rows 0%nat)) (f_unit fdot (pre c))) (length rows)) with (order64 c).
  assert (Same : forall n, (forall s pl, offers c s pl -> Bltb (o_best st) s = false /\ (Beqb s (o_best st) = true -> Bltb (o_dist st) (total_distance pl) = false)) ->
    st_ok (c :: cs) (mkOpt n (o_best st) (o_dist st) (o_plane st))).
  { intros n H. split; cbn [o_best o_dist o_plane].
    - intros c' s pl [<-|Hin] Ho; [apply H, Ho|eapply HA; eauto].
    - destruct (o_plane st) as [pl|]; [|exact HB]. destruct HB as ((c' & Hc' & Ho) & H2 & H3). split; [exists c'; split; [right; exact Hc'|exact Ho]|auto]. }
  assert (No : nth_error (positions64 c) (f_argmax (scores64 c)) = None -> forall s pl, offers c s pl -> False) by (intros E s pl (k & _ & E' & _); congruence).
  destruct (positions64 c) as [|p0 ps] eqn:Ep.
  { cbn [fst]. apply Same. intros s pl Ho. exfalso. eapply No; [|exact Ho]. destruct (f_argmax _); reflexivity. }
  rewrite <- Ep. rewrite <- Ep in No. fold (scores64 c). rewrite Harg. cbn [o_best o_dist].
  destruct (nth_error (scores64 c) (f_argmax (scores64 c))) as [s|] eqn:Es.
  2: { cbn [fst]. apply Same. intros s pl (k & E & _). congruence. }
  destruct (nth_error (positions64 c) (f_argmax (scores64 c))) as [k|] eqn:Ek.
  2: { cbn [fst]. apply Same. intros s' pl Ho. exfalso. eapply No; eauto. }
  assert (Ho : offers c s (plane_at c k)) by (exists k; auto). rewrite Hge, Hgt.
  assert (Ed : fsum (map (fun x : float64 => Babs (f_sub x (fdot (f_unit fdot (pre c)) (map2 (fun a b => f_mul f_half (f_add a b)) (X (nth (nth (k - 1) (order64 c) 0%nat) rows 0%nat)) (X (nth (nth k (order64 c) 0%nat) rows 0%nat))))))
    (map (projection c) rows)) = total_distance (plane_at c k)) by (rewrite map_map; reflexivity).
  rewrite Ed. clear Ed.
  destruct (Bleb (o_best st) s) eqn:Ege.
  2: { cbn [fst]. apply Same. intros s' pl Ho'. destruct (offers_det _ _ _ _ _ Ho Ho') as [<- <-]. split.
    - apply not_lt. intros N1 N2. apply Rlt_le. apply not_le; assumption.
    - intros He. apply eq_inv in He as (N1 & N2 & K). exfalso. pose proof (not_le _ _ Ege N2 N1). lra. }
  pose proof (le_inv _ _ Ege) as (Nb & Ns & Kge).
  destruct (Bltb (o_best st) s) eqn:Egt.
  - cbn [fst]. apply lt_inv in Egt as (_ & _ & Kgt). split; cbn [o_best o_dist o_plane].
    + intros c' s' pl' [<-|Hin] Ho'.
      * destruct (offers_det _ _ _ _ _ Ho Ho') as [<- <-]. split; [apply not_lt; intros; lra|]. intros _. apply not_lt. intros. lra.
      * destruct (HA c' s' pl' Hin Ho') as [H1 _]. rewrite <- not_lt in H1. split.
        -- apply not_lt. intros _ N'. specialize (H1 Nb N'). lra.
        -- intros He. apply eq_inv in He as (N' & _ & K). specialize (H1 Nb N'). lra.
    + split; [exists c; split; [left; reflexivity|exact Ho]|]. split; [|reflexivity].
      assert (Bleb ns (o_best st) = true \/ o_best st = ns) as [Hl|Hl] by (destruct (o_plane st); [left; apply HB|right; exact HB]).
      * apply le_inv in Hl as (N1 & _ & K). destruct (key_cmp ns s N1 Ns) as (_ & -> & _). apply Rle_bool_true. lra.
      * rewrite <- Hl. exact Ege.
  - destruct (Bltb (o_dist st) (total_distance (plane_at c k))) eqn:Ef; cbn [fst].
    + assert (Ke : fkey s = fkey (o_best st)) by (rewrite <- not_lt in Egt; specialize (Egt Nb Ns); lra).
      apply lt_inv in Ef as (Nd & Nd' & Kd). split; cbn [o_best o_dist o_plane].
      * intros c' s' pl' [<-|Hin] Ho'.
        -- destruct (offers_det _ _ _ _ _ Ho Ho') as [<- <-]. split; [apply not_lt; intros; lra|]. intros _. apply not_lt. intros. lra.
        -- destruct (HA c' s' pl' Hin Ho') as [H1 H2]. rewrite <- not_lt in H1. split.
           ++ apply not_lt. intros _ N'. specialize (H1 Nb N'). lra.
           ++ intros He. apply eq_inv in He as (N' & _ & K). destruct (key_cmp s' (o_best st) N' Nb) as (_ & _ & Eq). rewrite Req_bool_true in Eq by lra.
              specialize (H2 Eq). rewrite <- not_lt in H2. apply not_lt. intros _ M. specialize (H2 Nd M). lra.
      * split; [exists c; split; [left; reflexivity|exact Ho]|]. split; [|reflexivity].
        assert (Bleb ns (o_best st) = true \/ o_best st = ns) as [Hl|Hl] by (destruct (o_plane st); [left; apply HB|right; exact HB]).
        -- apply le_inv in Hl as (N1 & _ & K). destruct (key_cmp ns s N1 Ns) as (_ & -> & _). apply Rle_bool_true. lra.
        -- rewrite <- Hl. exact Ege.
    + apply Same. intros s' pl Ho'. destruct (offers_det _ _ _ _ _ Ho Ho') as [<- <-]. auto.
Qed.
Lemma run_ok cs : st_ok (rev cs) (opt_run G L X y n_dim lvl prior rows ns cs).
Proof.
  unfold opt_run. rewrite <- fold_left_rev_right. generalize (rev cs). clear cs. induction l as [|c l IH]; cbn [fold_right]; [|apply compute_ok, IH].
  split; [intros c s pl []|reflexivity].
Qed.
Lemma run_best cs pl : let st := opt_run G L X y n_dim lvl prior rows ns cs in o_plane st = Some pl -> best_plane cs pl (o_best st).
Proof.
  intros st E. destruct (run_ok cs) as [HA HB]. fold st in HA, HB. rewrite E in HB. destruct HB as ((c & Hc & Ho) & H2 & H3). split; [|split; [exact H2|]].
  - exists c. split; [apply in_rev, Hc|exact Ho].
  - intros c' s pl' Hin Ho'. rewrite <- H3. apply (HA c' s pl'); [apply in_rev; rewrite rev_involutive; exact Hin|exact Ho'].
Qed.
(** No candidate offers more than the leaf, nor as much at a positive distance. *)
Definition no_better (cs : list C) : Prop :=
  forall c s pl, In c cs -> offers c s pl -> Bltb ns s = false /\ (Beqb s ns = true -> Bltb f_zero (total_distance pl) = false).
Lemma run_none cs : let st := opt_run G L X y n_dim lvl prior rows ns cs in o_plane st = None -> no_better cs.
Proof.
  intros st E. assert (Hd : forall cs0, o_plane (fold_right (fun c st => fst (opt_compute G L X y n_dim lvl prior rows ns st c)) (opt_init G ns) cs0) = None ->
    o_dist (fold_right (fun c st => fst (opt_compute G L X y n_dim lvl prior rows ns st c)) (opt_init G ns) cs0) = f_zero).
  { induction cs0 as [|c cs0 IH]; [reflexivity|]. cbn [fold_right]. revert IH. generalize (fold_right (fun c st => fst (opt_compute G L X y n_dim lvl prior rows ns st c)) (opt_init G ns) cs0).
    intros st0 IH. unfold opt_compute. destruct (split_positions _ _) as [|p0 ps]; [exact IH|]. destruct (nth_error (l_split _ _ _ _ _ _) _); [|exact IH]. destruct (nth_error (p0 :: ps) _); [|exact IH].
    destruct (l_ge _ _ _); [|exact IH]. destruct (if l_gt _ _ _ then _ else _); [discriminate|exact IH]. }
  destruct (run_ok cs) as [HA HB]. fold st in HA, HB. rewrite E in HB. specialize (Hd (rev cs)).
  assert (Es : fold_right (fun c st => fst (opt_compute G L X y n_dim lvl prior rows ns st c)) (opt_init G ns) (rev cs) = st) by (unfold st, opt_run; symmetry; rewrite <- fold_left_rev_right; reflexivity).
  rewrite Es in Hd. specialize (Hd E). rewrite HB, Hd in HA. intros c s pl Hin. apply HA. apply in_rev. rewrite rev_involutive. exact Hin.
Qed.
(** If no score of a candidate is NaN, its offer is at least as good as all its scores. *)
Lemma offers_best c : positions64 c <> [] -> Forall (fun s => is_nan s = false) (scores64 c) ->
  exists s pl, offers c s pl /\ forall s', In s' (scores64 c) -> Bltb s s' = false.
Proof.
  intros Hp Hn. assert (Hl : length (scores64 c) = length (positions64 c)) by apply Hlen.
  destruct (argmax_numbers (scores64 c)) as (s & Es & Hs); [destruct (positions64 c); [congruence|]; destruct (scores64 c); [discriminate|discriminate]|exact Hn|].
  destruct (nth_error (positions64 c) (f_argmax (scores64 c))) as [k|] eqn:Ek.
  - exists s, (plane_at c k). split; [exists k; auto|exact Hs].
  - apply nth_error_None in Ek. assert (f_argmax (scores64 c) < length (scores64 c))%nat by (apply nth_error_Some; congruence). lia.
Qed.
Theorem best_all cs pl b : best_plane cs pl b -> forall c s, In c cs -> Forall (fun s => is_nan s = false) (scores64 c) -> In s (scores64 c) -> Bltb b s = false.
Proof.
  intros (_ & Hb & H) c s Hin Hn Hs. assert (Hp : positions64 c <> []).
  { intros E. assert (Hl : length (scores64 c) = length (positions64 c)) by apply Hlen. rewrite E in Hl. destruct (scores64 c); [destruct Hs|discriminate]. }
  destruct (offers_best c Hp Hn) as (s1 & pl1 & Ho & Hs1). destruct (H c s1 pl1 Hin Ho) as [H1 _]. specialize (Hs1 s Hs).
  rewrite <- not_lt in H1, Hs1. apply not_lt. intros N1 N2. destruct Ho as (k & E1 & _). assert (N3 : is_nan s1 = false) by (rewrite Forall_forall in Hn; apply Hn; eapply nth_error_In; eauto).
  specialize (H1 N1 N3). specialize (Hs1 N3 N2). lra.
Qed.
End Node.

Variable post : R -> P -> list Y -> P.
Variable cands : list bool -> list C.
(** A split node with the rows [rows]: its plane is the best of the candidates evaluated there; the stored leaf score is the one computed from the rows. *)
Definition chosen_node (rows : list nat) (u : tree (plane (list float64) (list float64)) float64 P) : Prop :=
  match u with
  | Leaf _ => True
  | Split i pl a b _ _ => let prior := l_prior L (i_prior i) (length rows) n_dim in
      a = l_no_split L (i_level i) prior (map y rows) /\ exists path, best_plane (i_level i) prior rows a (cands path) pl b
  end.
Lemma hfit_chosen fuel : forall lvl path pa rows t, hfit G L post X y n_dim cands fuel lvl path pa rows = Ok t ->
  nodes_ok (hgo1 G X) (hgo2 G X) chosen_node rows t.
Proof.
  induction fuel as [|fuel IH]; intros lvl path pa rows t H; [discriminate|].
  apply hfit_inv in H as [->|(pl & c1 & c2 & Epl & -> & H1 & H2 & Hc)]; [split; exact I|]. cbn [nodes_ok].
  split; [split; [reflexivity|exists path; apply run_best, Epl]|].
  assert (Hl : forall b rc c, (b = false /\ rc = filter (hgo1 G X pl) rows /\ c = c1) \/ (b = true /\ rc = filter (hgo2 G X pl) rows /\ c = c2) ->
    nodes_ok (hgo1 G X) (hgo2 G X) chosen_node rc c).
  { intros b rc c' Hb. destruct (Hc b rc c' Hb) as [->|(fuel' & Ef & H)]; [split; exact I|]. injection Ef as <-. eapply IH; exact H. }
  split; [apply (Hl false); auto|apply (Hl true); auto].
Qed.
(** A leaf: at most one row, one target value, nothing better offered, or all rows on one side of the best plane. *)
Definition leaf_reason (rows : list nat) (u : tree (plane (list float64) (list float64)) float64 P) : Prop :=
  match u with
  | Split _ _ _ _ _ _ => True
  | Leaf i => (length rows <= 1)%nat \/ l_many L (map y rows) = false \/
      let prior := l_prior L (i_prior i) (length rows) n_dim in let ns := l_no_split L (i_level i) prior (map y rows) in
      exists path, no_better (i_level i) prior rows ns (cands path) \/
        exists pl b, best_plane (i_level i) prior rows ns (cands path) pl b /\ (filter (hgo1 G X pl) rows = [] \/ filter (hgo2 G X pl) rows = [])
  end.
Lemma hfit_leaves fuel : forall lvl path pa rows t, hfit G L post X y n_dim cands fuel lvl path pa rows = Ok t ->
  nodes_ok (hgo1 G X) (hgo2 G X) leaf_reason rows t.
Proof.
  induction fuel as [|fuel IH]; intros lvl path pa rows t H; [discriminate|].
  apply hfit_inv_reasons in H as [[-> Hr]|(pl & c1 & c2 & Epl & -> & H1 & H2 & Hc)].
  - split; [|exact I]. right. right. exists path. destruct Hr as [Hr|(pl & Epl & Hr)]; [left; apply run_none, Hr|]. right. exists pl. eexists. split; [apply run_best, Epl|exact Hr].
  - cbn [nodes_ok]. split; [exact I|].
    assert (Hl : forall b rc c, (b = false /\ rc = filter (hgo1 G X pl) rows /\ c = c1) \/ (b = true /\ rc = filter (hgo2 G X pl) rows /\ c = c2) ->
      nodes_ok (hgo1 G X) (hgo2 G X) leaf_reason rc c).
    { intros b rc c' Hb. destruct (Hc b rc c' Hb) as [[-> Hr]|(fuel' & Ef & H)]; [split; [destruct Hr; [left; assumption|right; left; assumption]|exact I]|]. injection Ef as <-. eapply IH; exact H. }
    split; [apply (Hl false); auto|apply (Hl true); auto].
Qed.
End Choice.

Theorem h64_chosen fdot fmv fsum {C Y P} (pre : C -> list float64) prec srt (L : lik Y P float64) post same prn lvl pa cands (d : hset (list float64) Y) t :
  (forall a b, l_ge L a b = Bleb b a) -> (forall a b, l_gt L a b = Bltb b a) -> (forall l, l_argmax L l = f_argmax l) ->
  hyper_fit (geo_f fdot fmv fsum pre prec srt) L post same prn lvl pa cands d = Ok t ->
  nodes_ok (h64_back fdot fmv (hs_X d)) (h64_front fdot fmv (hs_X d)) (chosen_node fdot fmv fsum pre prec srt L (hs_X d) (hs_y d) (hs_dim d) cands) (seq 0 (hs_n d)) t.
Proof.
  intros H1 H2 H3 H. apply hyper_fit_inv in H as (t0 & E0 & Hp). apply hfit_chosen in E0; auto.
  eapply pruned_nodes_ok' in E0; [exact E0|simpl; auto|simpl; auto|exact Hp].
Qed.
Theorem h64_leaves fdot fmv fsum {C Y P} (pre : C -> list float64) prec srt (L : lik Y P float64) post same lvl pa cands (d : hset (list float64) Y) t :
  (forall a b, l_ge L a b = Bleb b a) -> (forall a b, l_gt L a b = Bltb b a) -> (forall l, l_argmax L l = f_argmax l) ->
  hyper_fit (geo_f fdot fmv fsum pre prec srt) L post same false lvl pa cands d = Ok t ->
  nodes_ok (h64_back fdot fmv (hs_X d)) (h64_front fdot fmv (hs_X d)) (leaf_reason fdot fmv fsum pre prec srt L (hs_X d) (hs_y d) (hs_dim d) cands) (seq 0 (hs_n d)) t.
Proof.
  intros H1 H2 H3 H. unfold hyper_fit in H. destruct (hfit _ _ _ _ _ _ _ _ _ _ _ _) as [t0|e] eqn:E0; [|discriminate]. cbn in H. injection H as ->.
  eapply hfit_leaves; eauto.
Qed.
