(** * CastProofs: fits and queries read the given numbers or raise. *)
From Coq Require Import QArith Reals Permutation.
From Coq Require String.
From Flocq Require Import Core BinarySingleNaN.
From Verif Require Import Prelude Tree Perp RealOps Clf Reg Api Spec ClfSpec ApiSpec FitProofs OptProofs OptFit Object ObjectSpec Validate ValidateProofs Model ModelSpec ModelProofs ModelFit ModelLemmas
  ModelTargets ModelWitness FloatFeat NumWitness CastSpec.
Local Open Scope nat_scope.

Section Conversion.
Context {E A : Type}.
Variable c : cast E A.

Lemma mapM_ok (l : list E) xs : mapM (astype c) l = Ok xs -> Forall2 (fun g r => astype c g = Ok r) l xs.
Proof.
  revert xs. induction l as [|g l IH]; intros xs H; cbn [mapM] in H; [injection H as <-; constructor|].
  destruct (astype c g) as [r|] eqn:Eg; [|discriminate]. cbn [rbind] in H. destruct (mapM _ l) as [rs|]; [|discriminate].
  cbn [rbind] in H. injection H as <-. constructor; auto.
Qed.
Lemma mapM_total (l : list E) : (forall g, In g l -> exists r, astype c g = Ok r) -> exists xs, mapM (astype c) l = Ok xs.
Proof.
  induction l as [|g l IH]; intros H; [exists []; reflexivity|].
  destruct (H g (or_introl eq_refl)) as [r Er]. destruct IH as [rs Ers]; [intros; apply H; right; auto|].
  exists (r :: rs). cbn [mapM]. rewrite Er. cbn [rbind]. rewrite Ers. reflexivity.
Qed.
Lemma forall2_unchanged (l : list E) xs : Forall2 (fun g r => astype c g = Ok r) l xs ->
  forallb (fun p => unchanged c (fst p) (snd p)) (combine l xs) = true ->
  Forall2 (fun g r => astype c g = Ok r /\ unchanged c g r = true) l xs.
Proof.
  induction 1 as [|g r l xs H1 H2 IH]; intros Hb; [constructor|]. cbn [combine forallb fst snd] in Hb. apply andb_true_iff in Hb.
  destruct Hb. constructor; auto.
Qed.
Lemma ensure_faithful a b : ensure_float64 c a = Ok b -> a_shape b = a_shape a /\ faithful c (a_dtype a) (a_data a) (a_data b).
Proof.
  unfold ensure_float64, faithful. destruct (supported (a_dtype a)); [intros [= <-]; auto|].
  destruct (mapM (astype c) (a_data a)) as [xs|] eqn:Ex; [|discriminate]. cbn [rbind].
  destruct (forallb _ _) eqn:Eb; [|discriminate]. intros [= <-]. split; auto. cbn [a_data].
  apply forall2_unchanged; auto. apply mapM_ok; auto.
Qed.
Lemma ensure_lossy a : lossy c (a_dtype a) (a_data a) -> ensure_float64 c a = Err ValueError.
Proof.
  intros (Ht & Hall & g & r & Hg & Er & Hu). unfold ensure_float64. rewrite Ht. destruct (mapM_total _ Hall) as [xs Ex]. rewrite Ex. cbn [rbind].
  destruct (forallb _ _) eqn:Eb; [|reflexivity]. exfalso.
  pose proof (forall2_unchanged _ _ (mapM_ok _ _ Ex) Eb) as HF. clear Eb Ex Hall.
  induction HF as [|g' r' l xs (H1 & H2) HF IH]; [destruct Hg|]. destruct Hg as [->|Hg]; [congruence|auto].
Qed.

Context {NM : Type}.
Variable x_name : nat -> NM.
Lemma normalize_faithful x names p : normalize c x_name x names = Ok p -> faithful c (query_dtype x) (query_data x) (a_data (fst p)).
Proof.
  unfold normalize. destruct x as [a cs|a|t e|a]; cbn [rbind fst snd query_dtype query_data].
  - destruct (ensure_float64 c a) as [b|] eqn:Eb; [|discriminate]. cbn [rbind]. destruct (Nat.eqb _ _); [|discriminate].
    intros [= <-]. apply (ensure_faithful a b Eb).
  - destruct (Nat.eqb (ndim a) 1); destruct names as [nms|]; cbn [rbind fst snd].
    all: try (destruct (a_shape _) as [|? [|? ?]]; cbn [rbind fst snd]; try discriminate).
    all: match goal with |- context [ensure_float64 c ?z] => destruct (ensure_float64 c z) as [b|] eqn:Eb; [|discriminate] end;
      cbn [rbind]; destruct (Nat.eqb _ _); try discriminate; intros [= <-]; apply (ensure_faithful _ b Eb).
  - match goal with |- context [ensure_float64 c ?z] => destruct (ensure_float64 c z) as [b|] eqn:Eb; [|discriminate] end.
    cbn [rbind]. destruct (Nat.eqb _ _); [|discriminate]. intros [= <-]. apply (ensure_faithful _ b Eb).
  - destruct (Nat.eqb (ndim a) 1); destruct names as [nms|]; cbn [rbind fst snd].
    all: try (destruct (a_shape _) as [|? [|? ?]]; cbn [rbind fst snd]; try discriminate).
    all: match goal with |- context [ensure_float64 c ?z] => destruct (ensure_float64 c z) as [b|] eqn:Eb; [|discriminate] end;
      cbn [rbind]; destruct (Nat.eqb _ _); try discriminate; intros [= <-]; apply (ensure_faithful _ b Eb).
Qed.
Lemma faithful_not_lossy t given read : faithful c t given read -> ~ lossy c t given.
Proof.
  unfold faithful. intros H (Ht & _ & g & r & Hg & Er & Hu). rewrite Ht in H.
  induction H as [|g' r' l xs (H1 & H2) HF IH]; [destruct Hg|]. destruct Hg as [->|Hg]; [congruence|auto].
Qed.
Lemma normalize_lossy x names : lossy c (query_dtype x) (query_data x) -> exists ex, normalize c x_name x names = Err ex.
Proof.
  intros H. destruct (normalize c x_name x names) as [p|ex] eqn:En; [|eauto]. exfalso.
  exact (faithful_not_lossy _ _ _ (normalize_faithful x names p En) H).
Qed.
(** A matrix, a row or a scalar raises ValueError. *)
Lemma normalize_lossy_matrix x m names : query_matrix (with_dtype F64 x) m -> lossy c (query_dtype x) (query_data x) ->
  normalize c x_name x names = Err ValueError.
Proof.
  intros Hm H. unfold normalize.
  assert (HE : forall z, a_dtype z = query_dtype x -> a_data z = query_data x -> ensure_float64 c z = Err ValueError).
  { intros z H1 H2. apply ensure_lossy. rewrite H1, H2. exact H. }
  destruct x as [a cs|a|t e|a]; cbn [rbind fst snd query_dtype query_data with_dtype query_matrix a_shape] in *.
  - rewrite HE; auto.
  - destruct Hm as (_ & [Hs|(n & Hs)]); unfold ndim; rewrite Hs; cbn [length Nat.eqb]; unfold expand_dims; cbn [a_shape]; rewrite ?Hs;
      destruct names; cbn [rbind fst snd]; rewrite HE; auto.
  - rewrite HE; auto.
  - destruct Hm as (_ & [Hs|(n & Hs)]); unfold ndim; rewrite Hs; cbn [length Nat.eqb]; unfold expand_dims; cbn [a_shape]; rewrite ?Hs;
      destruct names; cbn [rbind fst snd]; rewrite HE; auto.
Qed.
End Conversion.

Lemma validate_faithful {E A Y NM} (cx : cast E A) (cy : cast E Y) (x_name : nat -> NM) check x y names v :
  validate cx cy x_name check x y names = Ok v ->
  faithful cx (query_dtype x) (query_data x) (a_data (v_X v)) /\ faithful cy (a_dtype y) (a_data y) (a_data (v_y v)).
Proof.
  unfold validate. destruct (ensure_float64 cy (squeeze y)) as [z|] eqn:Ez; [|discriminate]. cbn [rbind].
  destruct (check z); [|discriminate]. cbn [rbind]. destruct (normalize cx x_name x names) as [p|] eqn:Ep; [|discriminate]. cbn [rbind].
  destruct (Nat.eqb _ _); [|discriminate]. intros [= <-]. cbn [v_X v_y]. split; [apply (normalize_faithful cx x_name x names p Ep)|].
  apply (ensure_faithful cy (squeeze y) z Ez).
Qed.
Lemma validate_lossy_y {E A Y NM} (cx : cast E A) (cy : cast E Y) (x_name : nat -> NM) check x y names :
  lossy cy (a_dtype y) (a_data y) -> validate cx cy x_name check x y names = Err ValueError.
Proof. intros H. unfold validate. rewrite ensure_lossy; [reflexivity|exact H]. Qed.

(** ** Estimators *)
Section Est.
Context {E A V W C J Q Y P NM : Type}.

Lemma pe_fit_reads (e : perp_est E A V Y P NM) a s :
  (exists v, faithful (pe_cx e) (query_dtype (fa_X a)) (query_data (fa_X a)) (a_data (v_X v)) /\
     faithful (pe_cy e) (a_dtype (fa_y a)) (a_data (fa_y a)) (a_data (v_y v)) /\
     pe_fit e a s = (pe_grow e v ;; (if pe_prune e then prune_obj perp_klass (pe_same e) else done)) s) \/
  (exists ex, pe_fit e a s = ([], Some ex)).
Proof.
  unfold pe_fit, api_fit, reading, lifted.
  match goal with |- context [validate ?u1 ?u2 ?u3 ?u4 ?u5 ?u6 ?u7] => destruct (validate u1 u2 u3 u4 u5 u6 u7) as [v|ex] eqn:Ev end.
  - left. exists v. destruct (validate_faithful _ _ _ _ _ _ _ _ Ev). auto.
  - right. exists ex. reflexivity.
Qed.
Lemma he_fit_reads (e : hyper_est E A W C J Q Y P NM) cands a s :
  (exists v, faithful (he_cx e) (query_dtype (fa_X a)) (query_data (fa_X a)) (a_data (v_X v)) /\
     faithful (he_cy e) (a_dtype (fa_y a)) (a_data (fa_y a)) (a_data (v_y v)) /\
     he_fit e (cands, a) s = (he_grow e cands v ;; (if he_prune e then prune_obj hyper_klass (he_same e) else done)) s) \/
  (exists ex, he_fit e (cands, a) s = ([], Some ex)).
Proof.
  unfold he_fit, api_hfit, reading, lifted. cbn [fst snd].
  match goal with |- context [validate ?u1 ?u2 ?u3 ?u4 ?u5 ?u6 ?u7] => destruct (validate u1 u2 u3 u4 u5 u6 u7) as [v|ex] eqn:Ev end.
  - left. exists v. destruct (validate_faithful _ _ _ _ _ _ _ _ Ev). auto.
  - right. exists ex. reflexivity.
Qed.
Lemma pe_lossy (e : perp_est E A V Y P NM) a s :
  (lossy (pe_cy e) (a_dtype (fa_y a)) (a_data (fa_y a)) -> pe_fit e a s = ([], Some ValueError)) /\
  (lossy (pe_cx e) (query_dtype (fa_X a)) (query_data (fa_X a)) -> exists ex, pe_fit e a s = ([], Some ex)).
Proof.
  split; intros H.
  - unfold pe_fit, api_fit, reading, lifted. rewrite validate_lossy_y by auto. reflexivity.
  - destruct (pe_fit_reads e a s) as [(v & HX & _ & _)|Hex]; auto. exfalso. exact (faithful_not_lossy _ _ _ _ HX H).
Qed.
Lemma he_lossy (e : hyper_est E A W C J Q Y P NM) cands a s :
  (lossy (he_cy e) (a_dtype (fa_y a)) (a_data (fa_y a)) -> he_fit e (cands, a) s = ([], Some ValueError)) /\
  (lossy (he_cx e) (query_dtype (fa_X a)) (query_data (fa_X a)) -> exists ex, he_fit e (cands, a) s = ([], Some ex)).
Proof.
  split; intros H.
  - unfold he_fit, api_hfit, reading, lifted. cbn [fst snd]. rewrite validate_lossy_y by auto. reflexivity.
  - destruct (he_fit_reads e cands a s) as [(v & HX & _ & _)|Hex]; auto. exfalso. exact (faithful_not_lossy _ _ _ _ HX H).
Qed.
Lemma pe_query_lossy {O St} (e : perp_est E A V Y P NM) (val : option P -> P -> O) init (step : pdesc NM V -> bool -> St) o x m :
  query_matrix (with_dtype F64 x) m -> lossy (pe_cx e) (query_dtype x) (query_data x) ->
  pe_query e val init o x = Err ValueError /\ pe_paths e step o x = Err ValueError.
Proof.
  intros Hm H. unfold pe_query, pe_paths, api_query, api_paths. rewrite (normalize_lossy_matrix _ _ x m None Hm H). auto.
Qed.
Lemma he_query_lossy {O} (e : hyper_est E A W C J Q Y P NM) (val : option P -> P -> O) init o x m :
  query_matrix (with_dtype F64 x) m -> lossy (he_cx e) (query_dtype x) (query_data x) -> he_query e val init o x = Err ValueError.
Proof.
  intros Hm H. unfold he_query, api_query. rewrite (normalize_lossy_matrix _ _ x m None Hm H). auto.
Qed.
End Est.

(** ** A missing value: accepted as float64, rejected as object *)
Definition f_cast : cast float64 float64 := {| as_is := fun x => x; astype := fun x => Ok x; unchanged := fun x y => Beqb x y |}.
Definition fy_cast : cast float64 R := {| as_is := B2R; astype := fun x => Ok (B2R x); unchanged := fun x _ => Beqb x x |}.
(** [PerpendicularClassificationTree] on float64 arrays, with exact evidences. *)
Definition f_est (srt : (nat -> float64) -> nat -> list nat) (h : hyper (list R)) : perp_est float64 float64 float64 R (list R) string :=
  mkPE f_cast fy_cast x_names (fun pa y => clf_check_target (@length R) pa (to_fl y)) (feat_f f0 srt) (clf_lik (h_pp h) (h_delta h))
    (fun p q => Nat.eqb (clf_predict_leaf p) (clf_predict_leaf q)) (h_prune h) f0 0%R.
Definition nan_args (t : dtype) : fit_args float64 string := mkArgs (XArray (mkArr [2; 1] t [f1; fnan])) (mkArr [2] F64 [f0; f1]) None.

Lemma B2R_f1 : B2R f1 = 1%R.
Proof. unfold f1. apply Bone_correct. Qed.
Lemma nan_lossy : lossy f_cast Other [f1; fnan].
Proof. split; [reflexivity|]. split; [intros g _; exists g; reflexivity|]. exists fnan, fnan. split; [right; left; reflexivity|]. split; reflexivity. Qed.
Lemma nan_margs : matrix_args (nan_args F64) 2 1.
Proof. unfold matrix_args. cbn. repeat split; eauto; lia. Qed.
Lemma nan_target : right_target fy_cast (Some : R -> fl) 2 (fa_y (nan_args F64)).
Proof.
  split; [reflexivity|]. intros v. cbn [fa_y nan_args a_data map fy_cast as_is]. rewrite B2R_f1. change (B2R f0) with 0%R. split.
  - intros [<-|[<-|[]]]; [exists 0|exists 1]; split; try lia; reflexivity.
  - intros (k & Hk & ->). destruct k as [|[|k]]; [left|right; left|lia]; reflexivity.
Qed.
Lemma nan_by_dtype srt h : permutes srt -> exists s p,
  s = pe_new (Some p) /\ (exists o, outcome_of (pe_fit (f_est srt h) (nan_args F64)) s = Ok o) /\
  pe_fit (f_est srt h) (nan_args Other) s = ([], Some ValueError).
Proof.
  intros Hp. exists (pe_new (Some [1; 1]%R)), [1; 1]%R. split; [reflexivity|]. split.
  - apply (pe_labels (Some : R -> fl) (@length R) (f_est srt h) [1; 1]%R _ (nan_args F64) 2 1).
    + intros pa y. reflexivity.
    + exact Hp.
    + apply reach_new.
    + simpl. lia.
    + reflexivity.
    + exact nan_margs.
    + exact nan_target.
  - unfold pe_fit, api_fit, reading, lifted, validate.
    assert (EY : ensure_float64 (pe_cy (f_est srt h)) (squeeze (fa_y (nan_args Other))) = Ok (mkArr [2] F64 [0; 1]%R)).
    { unfold ensure_float64, squeeze. cbn [nan_args fa_y a_dtype a_shape a_data supported f_est pe_cy fy_cast as_is map filter Nat.eqb negb]. rewrite B2R_f1. reflexivity. }
    rewrite EY. cbn [rbind].
    assert (EC : pe_check (f_est srt h) (at_prior (oattrs (pe_new (Some [1; 1]%R) : obj (psplit string float64) R (list R)))) (mkArr [2] F64 [0; 1]%R) = Ok tt).
    { cbn [f_est pe_check]. cbn [pe_new new_obj oattrs at_prior].
      destruct (clf_target_exact (@length R) [1; 1]%R (to_fl (mkArr [2] F64 [0; 1]%R)) ltac:(simpl; lia)) as [H _]. apply H.
      split; [reflexivity|]. intros v. split.
      - intros [<-|[<-|[]]]; [exists 0|exists 1]; split; simpl; try lia; reflexivity.
      - intros (k & Hk & ->). simpl in Hk. destruct k as [|[|k]]; [left|right; left|lia]; reflexivity. }
    rewrite EC. cbn [rbind].
    rewrite (normalize_lossy_matrix (pe_cx (f_est srt h)) _ _ 1); [reflexivity| |exact nan_lossy].
    split; [reflexivity|]. right. exists 2. reflexivity.
Qed.
Lemma cast_case : lossy f_cast Other [f1; fnan] /\ faithful f_cast Other [f1; f2] [f1; f2] /\ ~ lossy f_cast Other [f1; f2].
Proof.
  assert (F : faithful f_cast Other [f1; f2] [f1; f2]) by (repeat constructor; vm_compute; reflexivity).
  split; [exact nan_lossy|]. split; [exact F|]. exact (faithful_not_lossy _ _ _ _ F).
Qed.
