(** * SimilarWitness: an example and a counterexample for moved training sets (C78). *)
From Coq Require Import QArith Qreals Reals Lra.
From Verif Require Import Prelude Lists Tree Perp RealOps Clf Reg Api Hyper Spec ClfSpec ApiSpec HyperSpec Exec Witness HyperExec HyperLemmas HyperWitness SimilarSpec SimilarProofs.
Local Open Scope R_scope.

(** The rotation with cosine 3/5 and sine 4/5. *)
Definition turn (x : list R) : list R :=
  match x with [a; b] => [3 / 5 * a - 4 / 5 * b; 4 / 5 * a + 3 / 5 * b] | _ => x end.
Lemma turn_isometry : isometry 2 turn.
Proof.
  split; [|split].
  - intros [|a [|b [|c x]]] H; try discriminate. reflexivity.
  - intros [|a [|b [|c x]]] [|a' [|b' [|c' x']]] H H'; try discriminate. unfold turn, dot, vsum. cbn [map2 fold_right]. field.
  - intros s r [|a [|b [|c x]]] [|a' [|b' [|c' x']]] H H'; try discriminate. unfold turn, combine_with. cbn [map2]. apply f_equal2; [field|apply f_equal2; [field|reflexivity]].
Qed.
Lemma turn_case delta prn : by_comparison sort_R /\ isometry 2 turn /\ hset_ok (hsetR hx1) /\ hs_dim (hsetR hx1) = 2%nat /\ proper 2 vecR (same_cands hx1_cs) /\
  exists t, hclf_fit vecR sort_R (same_cands hx1_cs) (hx1_h delta prn) (hsetR hx1) = Ok t /\ height t = 2%nat.
Proof.
  split; [exact argsort_by_comparison|]. split; [exact turn_isometry|]. destruct (hx1_fit delta prn) as ((_ & _ & _ & Hok & _) & _ & _ & t & Ht & Hh & _).
  split; [exact Hok|]. split; [reflexivity|]. split; [|eauto].
  intros path c Hc. repeat destruct Hc as [<-|Hc]; try contradiction; (split; [reflexivity|exists 0%nat; cbn; unfold Q2R; cbn; lra]).
Qed.

(** Scaling the data with the same [split_precision]. *)
Definition hsc := qset 1 [[0];[1]]%Q [0;1]%nat.
Definition hsc' := qset 1 [[0];[1#4]]%Q [0;1]%nat.
Lemma fixed_precision : exists (cands : list bool -> list (list Q)) k prior h d d' t t',
  hclf_setting sort_R k prior h d /\ hs_n d' = hs_n d /\ hs_dim d' = hs_dim d /\
  (forall i, hs_X d' i = moved (fun x => x) (1 / 4) [0] (hs_X d i)) /\ (forall i, hs_y d' i = hs_y d i) /\
  hclf_fit vecR sort_R cands h d = Ok t /\ hclf_fit vecR sort_R cands h d' = Ok t' /\ length (splits t) = 1%nat /\ splits t' = [].
Proof.
  destruct (hexec (9 # 10) (1 # 2) false [1;1]%Z (same_cands [[1]]%Q) hsc) as [v|e] eqn:E; [|vm_compute in E; discriminate].
  destruct (hexec (9 # 10) (1 # 2) false [1;1]%Z (same_cands [[1]]%Q) hsc') as [v'|e] eqn:E'; [|vm_compute in E'; discriminate].
  destruct (hexec_sound 2 (9 # 10) (1 # 2) 0 false [1;1]%Z (same_cands [[1]]%Q) hsc v) as [Hs Ht]; auto;
    [split; reflexivity|discriminate|apply unitb_ok; reflexivity|].
  destruct (hexec_sound 2 (9 # 10) (1 # 2) 0 false [1;1]%Z (same_cands [[1]]%Q) hsc' v') as [_ Ht']; auto;
    [split; reflexivity|discriminate|apply unitb_ok; reflexivity|].
  exists (same_cands [[1]]%Q), 2%nat, (map IZR [1;1]%Z), (qhyp (9 # 10) [1;1]%Z 0 false (1 # 2)), (hsetR hsc), (hsetR hsc'), (htreeR v), (htreeR v').
  split; [exact Hs|]. split; [reflexivity|]. split; [reflexivity|]. split.
  { intros [|[|[|i]]]; cbn; auto; f_equal; unfold Q2R; cbn; lra. }
  split; [intros i; reflexivity|]. split; [exact Ht|]. split; [exact Ht'|].
  rewrite !splits_htreeR, map_length. vm_compute in E. injection E as <-. vm_compute in E'. injection E' as <-. split; reflexivity.
Qed.
