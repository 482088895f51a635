(** * FloatHyperScale: multiplying all rows by a power of two changes the tree. *)
From Coq Require Import Reals Lra.
From Flocq Require Import Core BinarySingleNaN.
From Verif Require Import Prelude Tree Perp RealOps Api Hyper
  FloatFeat FloatReg FloatSum FloatNG FloatClf FloatClfSum FloatHyper FloatHyperDot FloatHyperFit FloatHyperEx FloatHyperChoiceEx FloatHyperHuge.
Local Open Scope R_scope.

(** Differences of the two rows as candidates, from left to right and from right to left. *)
Definition two_cands (d : hset (list float64) float64) (path : list bool) : list (list float64) :=
  [map2 f_sub (hs_X d 1) (hs_X d 0); map Bopp (map2 f_sub (hs_X d 1) (hs_X d 0))].
(** Two classes, the prior (1, 1), and simple functions in place of the logarithms. *)
Definition two_fit (d : hset (list float64) float64) := hcl64_fit f_dot f_dot (fun l => fold_left f_add l f_zero) (fun x => x) (fun x => x) f_add (fun x _ => x) f_one f_zero
  (fun v => v) f_zero (fun _ n => seq 0 n) false 0 (Some [f_one; f_one]) (two_cands d) d.
(** [b] has the rows of [a] multiplied by [r], and the same targets. *)
Definition scaled (r : R) (a b : hset (list float64) float64) : Prop := hs_n b = hs_n a /\ hs_dim b = hs_dim a /\
  forall i, (i < hs_n a)%nat -> Forall (fun x => is_finite x = true) (hs_X a i) /\ Forall (fun x => is_finite x = true) (hs_X b i) /\
    map B2R (hs_X b i) = map (Rmult r) (map B2R (hs_X a i)) /\ hs_y b i = hs_y a i.

Lemma pair_scaled : scaled (b2 600) pair_set huge_set.
Proof.
  split; [reflexivity|]. split; [reflexivity|]. intros i Hi. cbn [hs_n pair_set] in Hi. destruct i as [|[|i]]; [| |lia]; cbn [hs_X hs_y pair_set huge_set map];
    (split; [repeat constructor|]; split; [repeat constructor|]; split; [|reflexivity]).
  - change (B2R f_zero) with 0. rewrite Rmult_0_r. reflexivity.
  - rewrite val_600. rewrite (proj2 one_ok). rewrite Rmult_1_r. reflexivity.
Qed.
Lemma scale_differs : exists a b r i pl g h c1 c2 i', scaled r a b /\ 0 < r /\ two_fit a = Ok (Split i pl g h c1 c2) /\ two_fit b = Ok (Leaf i').
Proof.
  assert (H1 : match two_fit pair_set with Ok (Split _ _ _ _ _ _) => true | _ => false end = true) by (vm_compute; reflexivity).
  assert (H2 : match two_fit huge_set with Ok (Leaf _) => true | _ => false end = true) by (vm_compute; reflexivity).
  destruct (two_fit pair_set) as [[|i pl g h c1 c2]|] eqn:E1; try discriminate H1. destruct (two_fit huge_set) as [[i'|]|] eqn:E2; try discriminate H2.
  exists pair_set, huge_set, (b2 600), i, pl, g, h, c1, c2, i'. split; [exact pair_scaled|]. split; [apply b2_pos|]. split; [exact E1|exact E2].
Qed.
