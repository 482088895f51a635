(** * Object: tree objects with their attributes, and the order in which methods assign them.

    The trees of Tree.v are fitted trees.  Here the Python objects themselves are modelled: attributes may be
    missing, and a method is the sequence of states its attribute assignments produce, so that the effect
    of an exception or interrupt at any point can be stated. *)
From Coq Require Import Reals.
From Verif Require Import Prelude Tree Perp Hyper.
Local Open Scope nat_scope.

(** An attribute that may not exist ([None]) or hold Python's None ([Some None]). *)
Definition attr (A : Type) : Type := option (option A).

(** Attributes of a node that are not references.  [U] holds the attributes of the subclass
    ([split_dimension_], ... or [best_hyperplane_normal_], ...). *)
Record attrs (U S P : Type) := mkAttrs {
  at_prior : option P;        (* prior (constructor argument), [None] for Python's None *)
  at_level : nat;             (* level *)
  at_split : U;
  at_no : attr S;             (* log_p_data_no_split_ *)
  at_best : attr S;           (* best_log_p_data_split_ *)
  at_ndim : option nat;       (* n_dim_ *)
  at_ndata : option nat;      (* n_data_ *)
  at_post : option P          (* posterior_ *)
}.
Arguments mkAttrs {U S P}.
Arguments at_prior {U S P}.
Arguments at_level {U S P}.
Arguments at_split {U S P}.
Arguments at_no {U S P}.
Arguments at_best {U S P}.
Arguments at_ndim {U S P}.
Arguments at_ndata {U S P}.
Arguments at_post {U S P}.

(** A node with its references [child1_] and [child2_].  The code never shares children between
    nodes, so references are modelled by containment. *)
Inductive obj (U S P : Type) := Obj (a : attrs U S P) (c1 c2 : ref U S P)
with ref (U S P : Type) := Unset | PyNone | Ref (o : obj U S P).
Arguments Obj {U S P}.
Arguments Unset {U S P}.
Arguments PyNone {U S P}.
Arguments Ref {U S P}.

(** Attributes of a subclass: [k_new] of a new object, the successive states when a descriptor is stored
    or erased, and the descriptor ([None] on a leaf; [Err] if an attribute is missing). *)
Record klass (U D : Type) := {
  k_new : U;
  k_store : D -> U -> list U;
  k_erase : U -> list U;
  k_read : U -> res (option D)
}.
Arguments k_new {U D}.
Arguments k_store {U D}.
Arguments k_erase {U D}.
Arguments k_read {U D}.

(** ** Methods as sequences of states *)
Section Methods.
Context {U D S P : Type}.
Notation obj := (obj U S P).
Notation attrs := (attrs U S P).

Definition oattrs (o : obj) : attrs := match o with Obj a _ _ => a end.
Definition oc1 (o : obj) : ref U S P := match o with Obj _ c1 _ => c1 end.
Definition oc2 (o : obj) : ref U S P := match o with Obj _ _ c2 => c2 end.

(** The states after each assignment, and the exception that ended the method, if any. *)
Definition M : Type := obj -> list obj * option exn.
Definition done : M := fun _ => ([], None).
Definition raise (e : exn) : M := fun _ => ([], Some e).
Definition write (f : obj -> obj) : M := fun s => ([f s], None).
Definition andthen (m1 m2 : M) : M := fun s =>
  let '(t1, e1) := m1 s in
  match e1 with
  | Some e => (t1, Some e)
  | None => let '(t2, e2) := m2 (last t1 s) in (t1 ++ t2, e2)
  end.
Definition reading (f : obj -> M) : M := fun s => f s s.
Definition lifted {A} (r : res A) (f : A -> M) : M := match r with Ok a => f a | Err e => raise e end.

(** Assignment of single attributes. *)
Definition set_attrs (f : attrs -> attrs) (o : obj) : obj := match o with Obj a c1 c2 => Obj (f a) c1 c2 end.
Definition set_split (u : U) : obj -> obj :=
  set_attrs (fun a => mkAttrs (at_prior a) (at_level a) u (at_no a) (at_best a) (at_ndim a) (at_ndata a) (at_post a)).
Definition set_no (v : option S) : obj -> obj :=
  set_attrs (fun a => mkAttrs (at_prior a) (at_level a) (at_split a) (Some v) (at_best a) (at_ndim a) (at_ndata a) (at_post a)).
Definition set_best (v : option S) : obj -> obj :=
  set_attrs (fun a => mkAttrs (at_prior a) (at_level a) (at_split a) (at_no a) (Some v) (at_ndim a) (at_ndata a) (at_post a)).
Definition set_ndim (n : nat) : obj -> obj :=
  set_attrs (fun a => mkAttrs (at_prior a) (at_level a) (at_split a) (at_no a) (at_best a) (Some n) (at_ndata a) (at_post a)).
Definition set_ndata (n : nat) : obj -> obj :=
  set_attrs (fun a => mkAttrs (at_prior a) (at_level a) (at_split a) (at_no a) (at_best a) (at_ndim a) (Some n) (at_post a)).
Definition set_post (p : P) : obj -> obj :=
  set_attrs (fun a => mkAttrs (at_prior a) (at_level a) (at_split a) (at_no a) (at_best a) (at_ndim a) (at_ndata a) (Some p)).
Definition set_c1 (r : ref U S P) (o : obj) : obj := match o with Obj a _ c2 => Obj a r c2 end.
Definition set_c2 (r : ref U S P) (o : obj) : obj := match o with Obj a c1 _ => Obj a c1 r end.
(** Several successive states of the subclass attributes. *)
Definition write_split (us : U -> list U) : M := fun s => (map (fun u => set_split u s) (us (at_split (oattrs s))), None).

(** A method called on [self.child1_] / [self.child2_]; calling a method on None raises AttributeError. *)
Definition in_c1 (m : M) : M := fun s =>
  match s with
  | Obj _ (Ref o) _ => let '(t, e) := m o in (map (fun o' => set_c1 (Ref o') s) t, e)
  | _ => ([], Some AttributeError)
  end.
Definition in_c2 (m : M) : M := fun s =>
  match s with
  | Obj _ _ (Ref o) => let '(t, e) := m o in (map (fun o' => set_c2 (Ref o') s) t, e)
  | _ => ([], Some AttributeError)
  end.
End Methods.
Notation "m1 ;; m2" := (andthen m1 m2) (at level 100, right associativity).

Section Objects.
Context {U D S P : Type}.
Variable K : klass U D.
Notation obj := (obj U S P).
Notation M := (@M U S P).

(** base.py:18-26 [__init__]: a new object. *)
Definition new_obj (pa : option P) (lvl : nat) : obj :=
  Obj (mkAttrs pa lvl (k_new K) None None None None None) Unset Unset.

(** base.py:292-296 [_erase_split_info_base]. *)
Definition erase_base : M :=
  write (set_c1 PyNone) ;; write (set_c2 PyNone) ;; write (set_no None) ;; write (set_best None).
(** [_erase_split_info] (base_perpendicular.py:215-218, base_hyperplane.py:158-160). *)
Definition erase_split : M := write_split (k_erase K).

(** base.py:247-248 [is_fitted]. *)
Definition is_fitted (o : obj) : bool := match at_post (oattrs o) with Some _ => true | None => false end.
(** base.py:240-245 [_ensure_is_fitted]; [cols] is the number of columns of the query, if there is one. *)
Definition ensure_is_fitted (o : obj) (cols : option nat) : res unit :=
  if is_fitted o then
    match cols with
    | None => Ok tt
    | Some c => match at_ndim (oattrs o) with
                | None => Err AttributeError
                | Some n => if Nat.eqb c n then Ok tt else Err ValueError
                end
    end
  else Err ValueError.
(** [is_leaf] (base_perpendicular.py:201-203, base_hyperplane.py:130-132), also returning the descriptor of a
    split. *)
Definition node_split (o : obj) : res (option D) :=
  let! _ := ensure_is_fitted o None in k_read K (at_split (oattrs o)).

(** base.py:125-145 [_predict]; [val prior posterior] is the value of a leaf. *)
Fixpoint opredict {O} (go1 go2 : D -> nat -> bool) (val : option P -> P -> O) (o : obj)
    (indices : list nat) (y : list O) : res (list O) :=
  match o with
  | Obj a c1 c2 =>
      let! sp := node_split o in
      match sp with
      | None =>
          match at_post a with
          | Some p => Ok (fold_left (fun acc k => set_nth k (val (at_prior a) p) acc) indices y)
          | None => Err AttributeError
          end
      | Some d =>
          let indices1 := np_where (map (go1 d) indices) in
          let indices2 := np_where (map (go2 d) indices) in
          let! y1 := (if 0 <? length indices1 then
                        match c1 with
                        | Ref o1 => opredict go1 go2 val o1 (gather_idx indices indices1) y
                        | _ => Err AttributeError
                        end
                      else Ok y) in
          if 0 <? length indices2 then
            match c2 with
            | Ref o2 => opredict go1 go2 val o2 (gather_idx indices indices2) y1
            | _ => Err AttributeError
            end
          else Ok y1
      end
  end.

(** base.py:272-280 [_update_depth]. *)
Fixpoint odepth (o : obj) (depth : nat) : res nat :=
  match o with
  | Obj a c1 c2 =>
      let! sp := node_split o in
      match sp with
      | None => Ok (Nat.max depth (at_level a))
      | Some _ =>
          match c1 with
          | PyNone => Ok depth
          | Unset => Err AttributeError
          | Ref o1 =>
              let! depth1 := odepth o1 depth in
              match c2 with Ref o2 => odepth o2 depth1 | _ => Err AttributeError end
          end
      end
  end.
(** base.py:282-290 [_update_n_leaves]. *)
Fixpoint on_leaves (o : obj) (n : nat) : res nat :=
  match o with
  | Obj a c1 c2 =>
      let! sp := node_split o in
      match sp with
      | None => Ok (n + 1)
      | Some _ =>
          match c1 with
          | PyNone => Ok n
          | Unset => Err AttributeError
          | Ref o1 =>
              let! n1 := on_leaves o1 n in
              match c2 with Ref o2 => on_leaves o2 n1 | _ => Err AttributeError end
          end
      end
  end.

(** base_perpendicular.py:45-70 [_update_prediction_paths]. *)
Fixpoint opaths {St} (go1 go2 : D -> nat -> bool) (step : D -> bool -> St) (o : obj)
    (indices refs : list nat) (heap : list (list St)) : res (list (list St)) :=
  match o with
  | Obj a c1 c2 =>
      let! sp := node_split o in
      match sp with
      | None => Ok heap
      | Some d =>
          let indices1 := np_where (map (go1 d) indices) in
          let indices2 := np_where (map (go2 d) indices) in
          let refs1 := gather_idx refs indices1 in
          let refs2 := gather_idx refs indices2 in
          let h1 := fold_left (fun h r => append_at r (step d false) h) refs1 heap in
          let h2 := fold_left (fun h r => append_at r (step d true) h) refs2 h1 in
          let! h3 := (if 0 <? length indices1 then
                        match c1 with
                        | Ref o1 => let! sp1 := node_split o1 in
                            match sp1 with None => Ok h2 | Some _ => opaths go1 go2 step o1 indices1 refs1 h2 end
                        | _ => Err AttributeError
                        end
                      else Ok h2) in
          if 0 <? length indices2 then
            match c2 with
            | Ref o2 => let! sp2 := node_split o2 in
                match sp2 with None => Ok h3 | Some _ => opaths go1 go2 step o2 indices2 refs2 h3 end
            | _ => Err AttributeError
            end
          else Ok h3
      end
  end.

(** base.py:147-165 [_prune]; [same] compares [_predict_leaf] of two posteriors. *)
Variable same : P -> P -> bool.
Definition ref_split (r : ref U S P) : res (option D) :=
  match r with Ref o => node_split o | _ => Err AttributeError end.
Definition ref_post (r : ref U S P) : res P :=
  match r with
  | Ref o => match at_post (oattrs o) with Some p => Ok p | None => Err AttributeError end
  | _ => Err AttributeError
  end.
Fixpoint oprune (fuel : nat) : M :=
  match fuel with
  | 0 => raise OutOfFuel
  | Datatypes.S fuel' =>
      reading (fun self =>
        lifted (node_split self) (fun sp =>
          match sp with
          | None => done
          | Some _ =>
              lifted (odepth self 0) (fun depth_start =>
              lifted (on_leaves self 0) (fun n_leaves_start =>
                lifted (ref_split (oc1 self)) (fun s1 =>
                lifted (match s1 with None => ref_split (oc2 self) | Some d => Ok (Some d) end) (fun s2 =>
                  match s2 with
                  | None =>
                      lifted (ref_post (oc1 self)) (fun p1 => lifted (ref_post (oc2 self)) (fun p2 =>
                        if same p1 p2 then erase_base ;; erase_split else done))
                  | Some _ => in_c1 (oprune fuel') ;; in_c2 (oprune fuel')
                  end)) ;;
                reading (fun self' =>
                  lifted (odepth self' 0) (fun depth_end =>
                    if negb (Nat.eqb depth_start depth_end) then oprune fuel' else
                    lifted (on_leaves self' 0) (fun n_leaves_end =>
                      if negb (Nat.eqb n_leaves_start n_leaves_end) then oprune fuel' else done)))))
          end))
  end.
End Objects.

(** ** Perpendicular trees *)

(** [split_dimension_], [split_feature_name_], [split_value_]. *)
Record psplit (NM V : Type) := mkPSplit { ps_dim : option Z; ps_name : attr NM; ps_val : attr V }.
Arguments mkPSplit {NM V}.
Arguments ps_dim {NM V}.
Arguments ps_name {NM V}.
Arguments ps_val {NM V}.

(** Assignments in the order of base_perpendicular.py:144-149 and 215-218.
    Simplification of [k_read]: the dimension -1 (Python: last column) is read as column 0; with a split value
    it only occurs in the middle of [_erase_split_info], after the children were removed. *)
Definition perp_klass {NM V} : klass (psplit NM V) (pdesc NM V) := {|
  k_new := mkPSplit None None None;
  k_store := fun d u =>
    let u1 := mkPSplit (Some (Z.of_nat (sd_dim d))) (ps_name u) (ps_val u) in
    let u2 := mkPSplit (ps_dim u1) (Some (Some (sd_name d))) (ps_val u1) in
    let u3 := mkPSplit (ps_dim u2) (ps_name u2) (Some (Some (sd_val d))) in
    [u1; u2; u3];
  k_erase := fun u =>
    let u1 := mkPSplit (Some (-1)%Z) (ps_name u) (ps_val u) in
    let u2 := mkPSplit (ps_dim u1) (ps_name u1) (Some None) in
    let u3 := mkPSplit (ps_dim u2) (Some None) (ps_val u2) in
    [u1; u2; u3];
  k_read := fun u =>
    match ps_val u with
    | None => Err AttributeError
    | Some None => Ok None
    | Some (Some v) =>
        match ps_dim u, ps_name u with
        | Some d, Some (Some nm) => Ok (Some (mkDesc (Z.to_nat d) nm v))
        | _, _ => Err AttributeError
        end
    end
|}.

Section PerpFit.
Context {A V Y P S NM : Type}.
Variable F : feat A V.
Variable L : lik Y P S.
Variable X : nat -> nat -> A.
Variable y : nat -> Y.
Variable names : list NM.
Notation M := (@M (psplit NM V) S P).
Notation K := (@perp_klass NM V).

(** base_perpendicular.py:76-189 [_fit] with its assignments. *)
Fixpoint ofit (fuel : nat) (idxs : list (list nat)) : M :=
  match fuel with
  | 0 => raise OutOfFuel
  | Datatypes.S fuel' =>
      reading (fun self =>
      match idxs with
      | [] => raise IndexError
      | row0 :: _ =>
          let lvl := at_level (oattrs self) in
          let n_dim := length idxs in
          let n_data := length row0 in
          let prior := l_prior L (at_prior (oattrs self)) n_data n_dim in
          let y_any := gather y row0 in
          let no_split := l_no_split L lvl prior y_any in
          let bst := scan F L X y lvl prior idxs no_split in
          (if (0 <? b_idx bst)%Z then
             let dim := Z.to_nat (b_dim bst) in
             let row := nth dim idxs [] in
             let indices1 := firstn (Z.to_nat (b_idx bst)) row in
             let indices2 := skipn (Z.to_nat (b_idx bst)) row in
             let prior1 := l_child_prior L prior (gather y indices1) in
             let prior2 := l_child_prior L prior (gather y indices2) in
             match nth_error names dim with
             | None =>
                 write_split (fun u => [mkPSplit (Some (Z.of_nat dim)) (ps_name u) (ps_val u)]) ;; raise IndexError
             | Some nm =>
                 let v := f_mid F (X (last indices1 0) dim) (X (hd 0 indices2) dim) in
                 let child (prior_c : P) (indices : list nat) (sub : list (list nat)) : M :=
                   let n_c := length (hd [] sub) in
                   let ys := gather y indices in
                   if (1 <? n_c) && l_many L ys then ofit fuel' sub
                   else write (set_post (l_post L prior ys)) ;; write (set_ndata n_c) in
                 write_split (k_store K (mkDesc dim nm v)) ;;
                 write (set_no (Some no_split)) ;;
                 write (set_best (Some (b_score bst))) ;;
                 write (set_c1 (Ref (new_obj K (Some prior1) (lvl + 1)))) ;;
                 write (set_c2 (Ref (new_obj K (Some prior2) (lvl + 1)))) ;;
                 in_c1 erase_base ;; in_c2 erase_base ;; in_c1 (erase_split K) ;; in_c2 (erase_split K) ;;
                 lifted (sub_indices idxs indices1) (fun sub1 =>
                 lifted (sub_indices idxs indices2) (fun sub2 =>
                   in_c1 (child prior1 indices1 sub1) ;; in_c2 (child prior2 indices2 sub2)))
             end
           else erase_base ;; erase_split K) ;;
          write (set_ndim n_dim) ;; write (set_ndata n_data) ;; write (set_post (l_post L prior y_any))
      end)
  end.
Definition ofit_root (n n_dim : nat) : M := ofit (Datatypes.S n) (root_indices F X n n_dim).
End PerpFit.

(** ** Hyperplane trees *)

(** [best_hyperplane_normal_], [best_hyperplane_origin_]. *)
Record hsplit (N O : Type) := mkHSplit { hp_normal : attr N; hp_origin : attr O }.
Arguments mkHSplit {N O}.
Arguments hp_normal {N O}.
Arguments hp_origin {N O}.

(** Assignments in the order of base_hyperplane.py:84-85 and 158-160. *)
Definition hyper_klass {N O} : klass (hsplit N O) (plane N O) := {|
  k_new := mkHSplit None None;
  k_store := fun d u =>
    let u1 := mkHSplit (Some (Some (p_normal d))) (hp_origin u) in
    let u2 := mkHSplit (hp_normal u1) (Some (Some (p_origin d))) in
    [u1; u2];
  k_erase := fun u =>
    let u1 := mkHSplit (Some None) (hp_origin u) in
    let u2 := mkHSplit (hp_normal u1) (Some None) in
    [u1; u2];
  k_read := fun u =>
    match hp_normal u with
    | None => Err AttributeError
    | Some None => Ok None
    | Some (Some nrm) =>
        match hp_origin u with
        | Some (Some o) => Ok (Some (mkPlane nrm o))
        | Some None => Err TypeError          (* np.dot(normal, None) *)
        | None => Err AttributeError
        end
    end
|}.

Section HyperFit.
Context {W C N O J E Y P S : Type}.
Variable G : geo W C N O J E.
Variable L : lik Y P S.
Variable post : R -> P -> list Y -> P.
Variable X : nat -> W.
Variable y : nat -> Y.
Variable n_dim : nat.
Variable cands : list bool -> list C.
Notation M := (@M (hsplit N O) S P).
Notation K := (@hyper_klass N O).

(** base_hyperplane.py:22-121 [_fit] with its assignments.
    Simplification: the attribute [optimization_function] is omitted. *)
Fixpoint ohfit (fuel : nat) (path : list bool) (rows : list nat) : M :=
  match fuel with
  | 0 => raise OutOfFuel
  | Datatypes.S fuel' =>
      reading (fun self =>
      let lvl := at_level (oattrs self) in
      let n_data := length rows in
      let prior := l_prior L (at_prior (oattrs self)) n_data n_dim in
      let ys := map y rows in
      let no_split := l_no_split L lvl prior ys in
      let st := opt_run G L X y n_dim lvl prior rows no_split (cands path) in
      erase_base ;; erase_split K ;;
      match o_plane st with
      | None => done
      | Some pl =>
          let rows1 := filter (fun i => g_back G (p_normal pl) (p_origin pl) (X i)) rows in
          let rows2 := filter (fun i => g_front G (p_normal pl) (p_origin pl) (X i)) rows in
          if (0 <? length rows1) && (0 <? length rows2) then
            let prior1 := post 0%R prior (map y rows1) in
            let prior2 := post 0%R prior (map y rows2) in
            let child (b : bool) (rows_c : list nat) : M :=
              let ys_c := map y rows_c in
              if (1 <? length rows_c) && l_many L ys_c then ohfit fuel' (path ++ [b]) rows_c
              else write (set_post (l_post L prior ys_c)) ;; write (set_ndata (length rows_c)) in
            write_split (k_store K pl) ;;
            write (set_no (Some no_split)) ;;
            write (set_best (Some (o_best st))) ;;
            write (set_c1 (Ref (new_obj K (Some prior1) (lvl + 1)))) ;;
            write (set_c2 (Ref (new_obj K (Some prior2) (lvl + 1)))) ;;
            in_c1 erase_base ;; in_c2 erase_base ;; in_c1 (erase_split K) ;; in_c2 (erase_split K) ;;
            in_c1 (child false rows1) ;; in_c2 (child true rows2)
          else done
      end ;;
      write (set_ndim n_dim) ;; write (set_ndata n_data) ;; write (set_post (l_post L prior ys)))
  end.
End HyperFit.
