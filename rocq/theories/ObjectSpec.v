(** * ObjectSpec: vocabulary of the properties of tree objects. *)
From Verif Require Import Prelude Tree Perp Hyper Object.
Local Open Scope nat_scope.

(** Result of a method: the final state or the exception. *)
Definition outcome_of {U S P} (m : @M U S P) (s : obj U S P) : res (obj U S P) :=
  match m s with (t, None) => Ok (last t s) | (_, Some e) => Err e end.
(** All states an interrupted method can leave behind: the state before the first and after each assignment
    but the last one. *)
Definition interrupted {U S P} (m : @M U S P) (s o : obj U S P) : Prop :=
  o = s \/ exists t1 t2, fst (m s) = t1 ++ o :: t2 /\ t2 <> [].
(** The state in which an exception leaves the object. *)
Definition raised {U S P} (m : @M U S P) (s : obj U S P) (e : exn) (o : obj U S P) : Prop :=
  snd (m s) = Some e /\ o = last (fst (m s)) s.

(** Constructor arguments of a node never change. *)
Definition same_args {U S P} (s o : obj U S P) : Prop :=
  at_prior (oattrs o) = at_prior (oattrs s) /\ at_level (oattrs o) = at_level (oattrs s).

(** The object of a fitted tree; [stored d] and [erased] are the subclass attributes of splits and leaves. *)
Section ObjOf.
Context {U D S P : Type}.
Variable stored : D -> U.
Variable erased : U.
Fixpoint obj_of (t : tree D S P) : obj U S P :=
  match t with
  | Leaf i => Obj (mkAttrs (i_prior i) (i_level i) erased (Some None) (Some None) (i_n_dim i) (Some (i_n_data i)) (Some (i_post i)))
                PyNone PyNone
  | Split i d a b c1 c2 =>
      Obj (mkAttrs (i_prior i) (i_level i) (stored d) (Some (Some a)) (Some (Some b)) (i_n_dim i) (Some (i_n_data i)) (Some (i_post i)))
        (Ref (obj_of c1)) (Ref (obj_of c2))
  end.
End ObjOf.
Definition perp_stored {NM V} (d : pdesc NM V) : psplit NM V := mkPSplit (Some (Z.of_nat (sd_dim d))) (Some (Some (sd_name d))) (Some (Some (sd_val d))).
Definition perp_erased {NM V} : psplit NM V := mkPSplit (Some (-1)%Z) (Some None) (Some None).
Definition hyper_stored {N O} (d : plane N O) : hsplit N O := mkHSplit (Some (Some (p_normal d))) (Some (Some (p_origin d))).
Definition hyper_erased {N O} : hsplit N O := mkHSplit (Some None) (Some None).
Definition perp_obj {NM V S P} : tree (pdesc NM V) S P -> obj (psplit NM V) S P := obj_of perp_stored perp_erased.
Definition hyper_obj {N O S P} : tree (plane N O) S P -> obj (hsplit N O) S P := obj_of hyper_stored hyper_erased.
