(** * ObjectFit: fitting objects yields the objects of the fitted trees. *)
From Coq Require Import Reals.
From Verif Require Import Prelude Tree Perp Hyper Object ObjectSpec ObjectProofs.
Local Open Scope nat_scope.

Ltac step := rewrite outcome_then; cbn [rbind].

Section Children.
Context {U D S P : Type}.
Variable K : klass U D.
Variable stored : D -> U.
Variable erased : U.
Hypothesis Klaw : klass_law K stored erased.
Lemma children_erased (o o1 o2 : obj U S P) m :
  outcome_of (in_c1 erase_base ;; in_c2 erase_base ;; in_c1 (erase_split K) ;; in_c2 (erase_split K) ;; m)
    (set_c2 (Ref o2) (set_c1 (Ref o1) o)) =
  outcome_of m (Obj (oattrs o) (Ref (set_split erased (set_best None (set_no None (set_c2 PyNone (set_c1 PyNone o1))))))
                      (Ref (set_split erased (set_best None (set_no None (set_c2 PyNone (set_c1 PyNone o2))))))).
Proof.
  destruct o as [a r1 r2]. cbn [set_c1 set_c2 oattrs].
  rewrite outcome_then, outcome_c1, outcome_erase_base. cbn [rbind].
  rewrite outcome_then, outcome_c2, outcome_erase_base. cbn [rbind].
  rewrite outcome_then, outcome_c1, (outcome_erase K _ _ Klaw). cbn [rbind].
  rewrite outcome_then, outcome_c2, (outcome_erase K _ _ Klaw). reflexivity.
Qed.
End Children.

Section Perp.
Context {A V Y P S NM : Type}.
Variable F : feat A V.
Variable L : lik Y P S.
Variable X : nat -> nat -> A.
Variable y : nat -> Y.
Variable names : list NM.
Notation K := (@perp_klass NM V).
Notation obj := (obj (psplit NM V) S P).
Notation ofit := (ofit F L X y names).
Notation pfit := (pfit F L X y names).

Lemma ofit_outcome fuel : forall idxs (s : obj),
  outcome_of (ofit fuel idxs) s = let! t := pfit fuel (at_level (oattrs s)) (at_prior (oattrs s)) idxs in Ok (perp_obj t).
Proof.
  induction fuel as [|fuel IH]; intros idxs s; [reflexivity|]. cbn [Object.ofit Perp.pfit]. rewrite outcome_reading.
  destruct idxs as [|row0 idxs]; [reflexivity|].
  set (lvl := at_level (oattrs s)). set (pa := at_prior (oattrs s)). set (idx := row0 :: idxs).
  set (prior := l_prior L pa (length row0) (length idx)). set (no := l_no_split L lvl prior (gather y row0)).
  set (bst := scan F L X y lvl prior idx no).
  rewrite outcome_then. destruct (0 <? b_idx bst)%Z.
  2:{ rewrite outcome_then, outcome_erase_base. cbn [rbind]. rewrite (outcome_erase K _ _ perp_law). cbn [rbind].
      rewrite outcome_then. cbn [rbind outcome_of write last]. destruct s. reflexivity. }
  set (dim := Z.to_nat (b_dim bst)). set (i1 := firstn (Z.to_nat (b_idx bst)) (nth dim idx [])). set (i2 := skipn (Z.to_nat (b_idx bst)) (nth dim idx [])).
  destruct (nth_error names dim) as [nm|]; [|reflexivity].
  set (v := f_mid F (X (last i1 0) dim) (X (hd 0 i2) dim)).
  destruct s as [a c1 c2].
  rewrite outcome_then, (outcome_store K _ _ perp_law). cbn [rbind].
  do 4 (rewrite outcome_then, outcome_write; cbn [rbind]).
  rewrite (children_erased K _ _ perp_law).
  rewrite outcome_lifted. destruct (sub_indices idx i1) as [sub1|e]; cbn [rbind]; [|reflexivity].
  rewrite outcome_lifted. destruct (sub_indices idx i2) as [sub2|e]; cbn [rbind]; [|reflexivity].
  assert (Hc : forall prior_c indices sub,
    outcome_of (if (1 <? length (hd [] sub)) && l_many L (gather y indices) then ofit fuel sub
        else write (set_post (l_post L prior (gather y indices)));; write (set_ndata (length (hd [] sub))))
      (set_split perp_erased (set_best None (set_no None (set_c2 PyNone (set_c1 PyNone (new_obj K (Some prior_c) (lvl + 1))))))) =
    let! t := (if (1 <? length (hd [] sub)) && l_many L (gather y indices) then pfit fuel (lvl + 1) (Some prior_c) sub
               else Ok (Leaf (mkInfo (Some prior_c) (lvl + 1) (length (hd [] sub)) None (l_post L prior (gather y indices))))) in Ok (perp_obj t)).
  { intros pc ind sub. destruct ((1 <? length (hd [] sub)) && l_many L (gather y ind)).
    - rewrite IH. reflexivity.
    - reflexivity. }
  rewrite outcome_then, outcome_c1, Hc. clear IH.
  match goal with |- context [rbind (rbind ?r _) _] => destruct r as [d1|e]; cbn [rbind]; [|reflexivity] end.
  rewrite outcome_c2, Hc.
  match goal with |- context [rbind (rbind ?r _) _] => destruct r as [d2|e]; cbn [rbind]; [|reflexivity] end.
  reflexivity.
Qed.

Lemma ofit_front fuel idxs (s : obj) : keeps_front (ofit fuel idxs) s.
Proof.
  destruct fuel as [|fuel]; [constructor|]. cbn [Object.ofit]. unfold reading.
  destruct idxs as [|row0 idxs]; [constructor|].
  match goal with |- keeps_front (fun s => ?m s) _ => idtac | |- keeps_front ?m s => idtac end.
  unfold keeps_front. cbv beta.
  match goal with |- match (?m s) with _ => _ end => change (keeps_front m s) end.
  eapply front_ext; [rewrite then_assoc; rewrite then_assoc; reflexivity|].
  apply front_then; [|intros [a c1 c2]; split; reflexivity].
  apply keeps_then; [apply keeps_then|intros s1 _; apply keeps_write; destruct s1; repeat split].
  2:{ intros s1 _; apply keeps_write; destruct s1; repeat split. }
  destruct (0 <? _)%Z; [|apply keeps_then; [apply keeps_erase_base|intros; apply keeps_split]].
  destruct (nth_error names _); [|apply keeps_then; [apply keeps_split|intros; apply keeps_raise]].
  repeat (apply keeps_then; [first [apply keeps_split|apply keeps_c1|apply keeps_c2|apply keeps_write; match goal with |- same_self ?o _ => destruct o end; repeat split]|intros]).
  apply keeps_lifted. intros. apply keeps_lifted. intros.
  apply keeps_then; [apply keeps_c1|intros; apply keeps_c2].
Qed.
End Perp.

Section Hyp.
Context {W C N O J E Y P S : Type}.
Variable G : geo W C N O J E.
Variable L : lik Y P S.
Variable post : R -> P -> list Y -> P.
Variable X : nat -> W.
Variable y : nat -> Y.
Variable n_dim : nat.
Variable cands : list bool -> list C.
Notation K := (@hyper_klass N O).
Notation obj := (obj (hsplit N O) S P).
Notation ohfit := (ohfit G L post X y n_dim cands).
Notation hfit := (hfit G L post X y n_dim cands).

Lemma ohfit_outcome fuel : forall path rows (s : obj),
  outcome_of (ohfit fuel path rows) s = let! t := hfit fuel (at_level (oattrs s)) path (at_prior (oattrs s)) rows in Ok (hyper_obj t).
Proof.
  induction fuel as [|fuel IH]; intros path rows s; [reflexivity|]. cbn [Object.ohfit Hyper.hfit]. rewrite outcome_reading.
  set (lvl := at_level (oattrs s)). set (pa := at_prior (oattrs s)).
  set (prior := l_prior L pa (length rows) n_dim). set (no := l_no_split L lvl prior (map y rows)).
  set (st := opt_run G L X y n_dim lvl prior rows no (cands path)).
  rewrite outcome_then, outcome_erase_base. cbn [rbind]. rewrite outcome_then, (outcome_erase K _ _ hyper_law). cbn [rbind].
  rewrite outcome_then. destruct (o_plane st) as [pl|].
  2:{ rewrite outcome_done. cbn [rbind]. rewrite outcome_then. cbn [rbind outcome_of write last]. destruct s. reflexivity. }
  set (r1 := filter _ rows). set (r2 := filter (fun i => g_front G _ _ _) rows).
  destruct ((0 <? length r1) && (0 <? length r2)).
  2:{ rewrite outcome_done. cbn [rbind]. rewrite outcome_then. cbn [rbind outcome_of write last]. destruct s. reflexivity. }
  destruct s as [a c1 c2].
  rewrite outcome_then, (outcome_store K _ _ hyper_law). cbn [rbind].

  do 4 (rewrite outcome_then, outcome_write; cbn [rbind]).
  rewrite (children_erased K _ _ hyper_law).
  assert (Hc : forall prior_c b rows_c,
    outcome_of (if (1 <? length rows_c) && l_many L (map y rows_c) then ohfit fuel (path ++ [b]) rows_c
        else write (set_post (l_post L prior (map y rows_c)));; write (set_ndata (length rows_c)))
      (set_split hyper_erased (set_best None (set_no None (set_c2 PyNone (set_c1 PyNone (new_obj K (Some prior_c) (lvl + 1))))))) =
    let! t := (if (1 <? length rows_c) && l_many L (map y rows_c) then hfit fuel (lvl + 1) (path ++ [b]) (Some prior_c) rows_c
               else Ok (Leaf (mkInfo (Some prior_c) (lvl + 1) (length rows_c) None (l_post L prior (map y rows_c))))) in Ok (hyper_obj t)).
  { intros pc b rc. destruct ((1 <? length rc) && l_many L (map y rc)); [rewrite IH; reflexivity|reflexivity]. }
  rewrite outcome_then, outcome_c1, Hc. clear IH.
  match goal with |- context [rbind (rbind ?r _) _] => destruct r as [d1|e]; cbn [rbind]; [|reflexivity] end.
  rewrite outcome_c2, Hc.
  match goal with |- context [rbind (rbind ?r _) _] => destruct r as [d2|e]; cbn [rbind]; [|reflexivity] end.
  reflexivity.
Qed.

Lemma ohfit_front fuel path rows (s : obj) : keeps_front (ohfit fuel path rows) s.
Proof.
  destruct fuel as [|fuel]; [constructor|]. cbn [Object.ohfit]. unfold reading.
  unfold keeps_front. cbv beta.
  match goal with |- match (?m s) with _ => _ end => change (keeps_front m s) end.
  eapply front_ext; [rewrite then_assoc, then_assoc, then_assoc, then_assoc; reflexivity|].
  apply front_then; [|intros [a c1 c2]; split; reflexivity].
  apply keeps_then; [apply keeps_then|intros s1 _; apply keeps_write; destruct s1; repeat split].
  2:{ intros s1 _; apply keeps_write; destruct s1; repeat split. }
  apply keeps_then; [apply keeps_then; [apply keeps_erase_base|intros; apply keeps_split]|intros s1 _].
  destruct (o_plane _); [|apply keeps_done]. destruct (_ && _); [|apply keeps_done].
  repeat (apply keeps_then; [first [apply keeps_split|apply keeps_c1|apply keeps_c2|apply keeps_write; match goal with |- same_self ?o _ => destruct o end; repeat split]|intros]).
  apply keeps_c2.
Qed.
End Hyp.
