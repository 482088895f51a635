(** * Sparse: compressed sparse matrices and the code paths of the trees that read them.

    SciPy is external code: its operations are modelled by what they do to the stored entries. *)
From Coq Require Import Reals.
From Verif Require Import Prelude Tree Perp RealOps Validate Hyper.
Local Open Scope nat_scope.

(** The arrays of a [csr_matrix] (major axis: rows) or a [csc_matrix] (major axis: columns).  Explicit
    zeros, unsorted indices and duplicate entries are allowed. *)
Record compressed (A : Type) := mkComp {
  k_major : nat; k_minor : nat; k_dtype : dtype;
  k_indptr : list nat; k_indices : list nat; k_data : list A }.
Arguments mkComp {A}.
Arguments k_major {A}.
Arguments k_minor {A}.
Arguments k_dtype {A}.
Arguments k_indptr {A}.
Arguments k_indices {A}.
Arguments k_data {A}.

(** The stored entries (minor index, value) of one row (CSR) or column (CSC), in storage order. *)
Definition lane {A} (c : compressed A) (j : nat) : list (nat * A) :=
  let a := nth j (k_indptr c) 0 in
  let b := nth (1 + j) (k_indptr c) 0 in
  firstn (b - a) (skipn a (combine (k_indices c) (k_data c))).

(** What SciPy's [check_format] demands. *)
Definition comp_ok {A} (c : compressed A) : Prop :=
  length (k_indptr c) = 1 + k_major c /\ hd 0 (k_indptr c) = 0 /\
  (forall j, j < k_major c -> nth j (k_indptr c) 0 <= nth (1 + j) (k_indptr c) 0) /\
  last (k_indptr c) 0 = length (k_data c) /\ length (k_indices c) = length (k_data c) /\
  Forall (fun i => i < k_minor c) (k_indices c).

Inductive smat (A : Type) := Csr (c : compressed A) | Csc (c : compressed A).
Arguments Csr {A}.
Arguments Csc {A}.
Definition s_rows {A} (M : smat A) : nat := match M with Csr c => k_major c | Csc c => k_minor c end.
Definition s_cols {A} (M : smat A) : nat := match M with Csr c => k_minor c | Csc c => k_major c end.
Definition s_ok {A} (M : smat A) : Prop := match M with Csr c => comp_ok c | Csc c => comp_ok c end.

(** A compressed matrix with the given lanes. *)
Fixpoint offsets {B} (k : nat) (ls : list (list B)) : list nat :=
  k :: match ls with [] => [] | l :: r => offsets (k + length l) r end.
Definition of_lanes {A} (dt : dtype) (minor : nat) (ls : list (list (nat * A))) : compressed A :=
  mkComp (length ls) minor dt (offsets 0 ls) (map fst (concat ls)) (map snd (concat ls)).

(** Conversion of the major axis ([csr_tocsc]): lane [j] of the result lists the entries with minor
    index [j] by ascending major index, equal ones in storage order. *)
Definition swap_axes {A} (c : compressed A) : compressed A :=
  of_lanes (k_dtype c) (k_major c)
    (map (fun j => flat_map (fun i => map (fun e => (i, snd e)) (filter (fun e => Nat.eqb (fst e) j) (lane c i)))
                            (seq 0 (k_major c)))
         (seq 0 (k_minor c))).

(** base_perpendicular.py:84-86, 48-50, base.py:134-136, base_hyperplane.py:32-34,
    hyperplane_optimization.py:46-48: [if not dense and isinstance(X, csr_matrix): X = csc_matrix(X)]. *)
Definition to_csc {A} (M : smat A) : smat A := match M with Csr c => Csc (swap_axes c) | Csc _ => M end.

(** Lane [d] of [to_csc M]. *)
Definition csc_lane {A} (M : smat A) (d : nat) : list (nat * A) :=
  match to_csc M with Csr c => lane c d | Csc c => lane c d end.
Definition s_dtype {A} (M : smat A) : dtype := match M with Csr c => k_dtype c | Csc c => k_dtype c end.

(** Entries of a lane after selecting the minor indices [idx] (with repetitions): one copy per position. *)
Definition pick {A} (idx : list nat) (l : list (nat * A)) : list (nat * A) :=
  flat_map (fun e => map (fun p => (p, snd e)) (np_where (map (Nat.eqb (fst e)) idx))) l.

(** [X[:, d]], [X[idx, d]] and [X[idx]] of a CSC matrix.  Simplification: no range check of the indices,
    which are in range wherever the code uses these operations. *)
Definition column {A} (M : smat A) (d : nat) : smat A :=
  Csc (of_lanes (s_dtype M) (s_rows M) [csc_lane M d]).
Definition select {A} (M : smat A) (idx : list nat) (d : nat) : smat A :=
  Csc (of_lanes (s_dtype M) (length idx) [pick idx (csc_lane M d)]).
Definition select_rows {A} (M : smat A) (idx : list nat) : smat A :=
  Csc (of_lanes (s_dtype M) (length idx) (map (fun d => pick idx (csc_lane M d)) (seq 0 (s_cols M)))).

Section Values.
Context {A : Type}.
Variables (zero : A) (add : A -> A -> A).
(** [data.sum()] of the stored values of one position (scalar indexing [X[i, d]]).  NumPy may add eight or
    more floats pairwise instead of one after the other. *)
Variable total : list A -> A.

Definition add_at (k : nat) (v : A) (l : list A) : list A := set_nth k (add (nth k l zero) v) l.

(** [X.toarray()]: the entries are added into an array of zeros in storage order. *)
Definition toarray (M : smat A) : arr A :=
  let flat := match M with
    | Csr c => flat_map (fun i => map (fun e => (i * k_minor c + fst e, snd e)) (lane c i)) (seq 0 (k_major c))
    | Csc c => flat_map (fun j => map (fun e => (fst e * k_major c + j, snd e)) (lane c j)) (seq 0 (k_major c))
    end in
  mkArr [s_rows M; s_cols M] (s_dtype M)
        (fold_left (fun l e => add_at (fst e) (snd e) l) flat (repeat zero (s_rows M * s_cols M))).

(** [a[0]] of a two-dimensional array. *)
Definition first_row (a : arr A) : arr A :=
  mkArr (tl (a_shape a)) (a_dtype a) (firstn (nth 1 (a_shape a) 0) (a_data a)).

(** base_perpendicular.py:220-223 [_to_array]. *)
Definition to_array (M : smat A) : arr A :=
  let array := toarray M in
  match a_shape array with
  | [1; 1] => first_row array
  | _ => squeeze array
  end.

(** The callers treat the result as a one-dimensional array; any other shape (proved unreachable) is an
    error. *)
Definition as_vector (a : arr A) : res (list A) :=
  match a_shape a with [_] => Ok (a_data a) | _ => Err ValueError end.

Definition read_column (M : smat A) (d : nat) : res (list A) := as_vector (to_array (column M d)).
Definition read_rows (M : smat A) (idx : list nat) (d : nat) : res (list A) := as_vector (to_array (select M idx d)).
(** [X[i, d]] of a CSC matrix. *)
Definition read_at (M : smat A) (i d : nat) : A :=
  total (map snd (filter (fun e => Nat.eqb (fst e) i) (csc_lane M d))).

(** ** Perpendicular trees *)

Section Fit.
Context {V Y P S NM : Type}.
Variable F : feat A V.
Variable L : lik Y P S.
Variable y : nat -> Y.
Variable names : list NM.
Notation tree := (tree (pdesc NM V) S P).

(** base_perpendicular.py:110-130 with [dense = False]; the rest as in Perp.v. *)
Definition sscan_dim (M : smat A) (lvl : nat) (prior : P) (n_dim : nat) (bst : best S)
    (dim_row : nat * list nat) : res (best S) :=
  let '(dim, sort_indices) := dim_row in
  let! xs := read_rows M sort_indices dim in
  let split_indices := split_positions (f_gap F) xs in
  match split_indices with
  | [] => Ok bst
  | _ =>
      let y_sorted := gather y sort_indices in
      let log_p := l_split L lvl prior n_dim y_sorted split_indices in
      let i_max := l_argmax L log_p in
      match nth_error log_p i_max, nth_error split_indices i_max with
      | Some s, Some k =>
          if l_gt L s (b_score bst)
          then Ok (mkBest s (Z.of_nat k) (Z.of_nat dim))
          else Ok bst
      | _, _ => Ok bst
      end
  end.

Definition sscan (M : smat A) (lvl : nat) (prior : P) (idxs : list (list nat)) (no_split : S) : res (best S) :=
  fold_left (fun acc row => let! bst := acc in sscan_dim M lvl prior (length idxs) bst row)
            (combine (seq 0 (length idxs)) idxs)
            (Ok (mkBest no_split (-1)%Z (-1)%Z)).

(** base_perpendicular.py:76-189 [_fit] on a sparse matrix with given sort indices. *)
Fixpoint sfit (fuel : nat) (M : smat A) (lvl : nat) (prior_attr : option P) (idxs : list (list nat)) : res tree :=
  match fuel with
  | 0 => Err OutOfFuel
  | Datatypes.S fuel' =>
      let X := to_csc M in
      match idxs with
      | [] => Err IndexError
      | row0 :: _ =>
          let n_dim := length idxs in
          let n_data := length row0 in
          let prior := l_prior L prior_attr n_data n_dim in
          let y_any := gather y row0 in
          let no_split := l_no_split L lvl prior y_any in
          let! bst := sscan X lvl prior idxs no_split in
          let inf := mkInfo prior_attr lvl n_data (Some n_dim) (l_post L prior y_any) in
          if (0 <? b_idx bst)%Z then
            let dim := Z.to_nat (b_dim bst) in
            let row := nth dim idxs [] in
            let indices1 := firstn (Z.to_nat (b_idx bst)) row in
            let indices2 := skipn (Z.to_nat (b_idx bst)) row in
            let prior1 := l_child_prior L prior (gather y indices1) in
            let prior2 := l_child_prior L prior (gather y indices2) in
            match nth_error names dim with
            | None => Err IndexError
            | Some nm =>
                let v := f_mid F (read_at X (last indices1 0) dim) (read_at X (hd 0 indices2) dim) in
                let! sub1 := sub_indices idxs indices1 in
                let! sub2 := sub_indices idxs indices2 in
                let child (prior_c : P) (indices : list nat) (sub : list (list nat)) : res tree :=
                  let n_c := length (hd [] sub) in
                  let ys := gather y indices in
                  if (1 <? n_c) && l_many L ys
                  then sfit fuel' X (lvl + 1) (Some prior_c) sub
                  else Ok (Leaf (mkInfo (Some prior_c) (lvl + 1) n_c None (l_post L prior ys))) in
                let! c1 := child prior1 indices1 sub1 in
                let! c2 := child prior2 indices2 sub2 in
                Ok (Split inf (mkDesc dim nm v) no_split (b_score bst) c1 c2)
            end
          else Ok (Leaf inf)
      end
  end.

(** base_perpendicular.py:91-99. *)
Definition sroot_indices (M : smat A) : res (list (list nat)) :=
  fold_right (fun dim acc =>
      let! x := read_column (to_csc M) dim in
      let! rows := acc in
      Ok (map (store_index (s_rows M)) (f_argsort F (fun i => nth i x zero) (s_rows M)) :: rows))
    (Ok []) (seq 0 (s_cols M)).
Definition sfit_root (M : smat A) (lvl : nat) (prior_attr : option P) : res tree :=
  let! idxs := sroot_indices M in
  sfit (Datatypes.S (s_rows M)) M lvl prior_attr idxs.

(** base.py:68-74. *)
Definition sparse_fit (same : ninfo P -> ninfo P -> bool) (do_prune : bool) (lvl : nat) (pa : option P)
    (M : smat A) : res tree :=
  let! t := sfit_root M lvl pa in
  if do_prune then prune same t else Ok t.

(** base_perpendicular.py:191-199 with [dense = False]. *)
Definition schild_indices (M : smat A) (indices : list nat) (d : pdesc NM V) : res (list nat * list nat) :=
  let! x := read_rows M indices (sd_dim d) in
  Ok (np_where (map (fun a => f_lt F a (sd_val d)) x), np_where (map (fun a => f_ge F a (sd_val d)) x)).

End Fit.

End Values.

(** ** Queries, for either kind of tree

    [kids M indices d] is [_compute_child1_and_child2_indices(X, indices, dense)]. *)
Section Query.
Context {A D S P : Type}.
Notation tree := (tree D S P).
Variable kids : smat A -> list nat -> D -> res (list nat * list nat).

(** base.py:125-145 [_predict]. *)
Fixpoint spredict_into {O} (val : ninfo P -> O) (t : tree) (M : smat A) (indices : list nat) (y : list O) : res (list O) :=
  match t with
  | Leaf i => Ok (fold_left (fun acc k => set_nth k (val i) acc) indices y)
  | Split _ d _ _ c1 c2 =>
      let X := to_csc M in
      let! ij := kids X indices d in
      let! y1 := (if Nat.ltb 0 (length (fst ij))
                  then spredict_into val c1 X (gather_idx indices (fst ij)) y else Ok y) in
      if Nat.ltb 0 (length (snd ij))
      then spredict_into val c2 X (gather_idx indices (snd ij)) y1 else Ok y1
  end.
Definition spredict {O} (val : ninfo P -> O) (t : tree) (M : smat A) (init : O) : res (list O) :=
  spredict_into val t M (seq 0 (s_rows M)) (repeat init (s_rows M)).

(** base_perpendicular.py:45-70, see Tree.v for the representation of path lists. *)
Fixpoint supdate_paths {St} (step : D -> bool -> St) (t : tree) (M : smat A) (indices refs : list nat)
    (heap : list (list St)) : res (list (list St)) :=
  match t with
  | Leaf _ => Ok heap
  | Split _ d _ _ c1 c2 =>
      let X := to_csc M in
      let! ij := kids X indices d in
      let refs1 := gather_idx refs (fst ij) in
      let refs2 := gather_idx refs (snd ij) in
      let h1 := fold_left (fun h r => append_at r (step d false) h) refs1 heap in
      let h2 := fold_left (fun h r => append_at r (step d true) h) refs2 h1 in
      let! h3 := (if Nat.ltb 0 (length (fst ij)) && negb (is_leaf c1)
                  then supdate_paths step c1 X (fst ij) refs1 h2 else Ok h2) in
      if Nat.ltb 0 (length (snd ij)) && negb (is_leaf c2)
      then supdate_paths step c2 X (snd ij) refs2 h3 else Ok h3
  end.
Definition spaths {St} (step : D -> bool -> St) (t : tree) (M : smat A) : res (list (list St)) :=
  supdate_paths step t M (seq 0 (s_rows M)) (seq 0 (s_rows M)) (repeat [] (s_rows M)).
End Query.

(** ** Hyperplane trees over the reals *)

Local Open Scope R_scope.

(** [X @ v] of a CSC matrix: entry by entry, column by column. *)
Definition matvec (M : smat R) (v : list R) : list R :=
  let flat := flat_map (fun j => map (fun e => (fst e, snd e * nth j v 0)) (csc_lane M j)) (seq 0 (s_cols M)) in
  fold_left (fun l e => add_at 0 Rplus (fst e) (snd e) l) flat (repeat 0 (s_rows M)).
(** [X[i].toarray()[0]]. *)
Definition read_row (M : smat R) (i : nat) : list R := a_data (first_row (toarray 0 Rplus (select_rows M [i]))).

Section HyperFit.
Context {C P S : Type}.
Variables (pre : C -> list R) (prec : R) (srt : (nat -> R) -> nat -> list nat).
Variable L : lik R P S.
Variable post : R -> P -> list R -> P.
Notation G := (geo_R pre prec srt).
Notation hopt := (hopt (list R) (list R) S R).
Notation tree := (tree (plane (list R) (list R)) S P).

(** hyperplane_optimization.py:33-88 [compute] with a sparse matrix; [M] is the matrix of the node and [y]
    its targets. *)
Definition sopt_compute (M : smat R) (y : list R) (lvl : nat) (prior : P) (no_split : S) (st : hopt) (c : C)
    : hopt * S :=
  let st1 := mkOpt (1 + o_evals st)%nat (o_best st) (o_dist st) (o_plane st) in
  let nrm := g_unit G c in
  let X := to_csc M in
  let projections := matvec X nrm in
  let sort_indices := srt (fun k => nth k projections 0) (length projections) in
  let split_indices := split_positions (g_gap G) projections in
  match split_indices with
  | [] => (st1, no_split)
  | _ =>
      let y_sorted := map (fun k => nth k y 0) sort_indices in
      let log_p := l_split L lvl prior (s_cols X) y_sorted split_indices in
      let i_max := l_argmax L log_p in
      match nth_error log_p i_max, nth_error split_indices i_max with
      | Some s, Some k =>
          if l_ge L s (o_best st1) then
            let p1 := read_row X (nth (k - 1) sort_indices 0)%nat in
            let p2 := read_row X (nth k sort_indices 0)%nat in
            let org := g_mid G p1 p2 in
            let dist := g_dist G nrm org projections in
            if (if l_gt L s (o_best st1) then true else g_far G dist (o_dist st1))
            then (mkOpt (o_evals st1) s dist (Some (mkPlane nrm org)), s)
            else (st1, s)
          else (st1, s)
      | _, _ => (st1, no_split)
      end
  end.

Definition sopt_run (M : smat R) (y : list R) (lvl : nat) (prior : P) (no_split : S) (cs : list C) : hopt :=
  fold_left (fun st c => fst (sopt_compute M y lvl prior no_split st c)) cs (mkOpt 0%nat no_split 0 None).

(** base_hyperplane.py:63-66 and 124-126: positions of the rows behind and in front of a hyperplane. *)
Definition shyper_kids (M : smat R) (indices : list nat) (pl : plane (list R) (list R)) : res (list nat * list nat) :=
  let projections := map (fun p => p - dot (p_normal pl) (p_origin pl)) (matvec (select_rows M indices) (p_normal pl)) in
  Ok (np_where (map (fun p => Rltb p 0) projections), np_where (map (fun p => Rgeb p 0) projections)).

Variable cands : list bool -> list C.

(** base_hyperplane.py:22-121 [_fit] with a sparse matrix. *)
Fixpoint shfit (fuel lvl : nat) (path : list bool) (pa : option P) (M : smat R) (y : list R) : res tree :=
  match fuel with
  | 0%nat => Err OutOfFuel
  | Datatypes.S fuel' =>
      let n_data := s_rows M in
      let n_dim := s_cols M in
      let prior := l_prior L pa n_data n_dim in
      let X := to_csc M in
      let no_split := l_no_split L lvl prior y in
      let st := sopt_run X y lvl prior no_split (cands path) in
      let inf := mkInfo pa lvl n_data (Some n_dim) (l_post L prior y) in
      match o_plane st with
      | None => Ok (Leaf inf)
      | Some pl =>
          let projections := map (fun p => (p - dot (p_normal pl) (p_origin pl))%R) (matvec X (p_normal pl)) in
          let indices1 := np_where (map (fun p => Rltb p 0%R) projections) in
          let indices2 := np_where (map (fun p => Rgeb p 0%R) projections) in
          if (0 <? length indices1) && (0 <? length indices2) then
            let y1 := map (fun k => nth k y 0%R) indices1 in
            let y2 := map (fun k => nth k y 0%R) indices2 in
            let prior1 := post 0%R prior y1 in
            let prior2 := post 0%R prior y2 in
            let child (b : bool) (prior_c : P) (idx : list nat) (yc : list R) : res tree :=
              let Xc := select_rows X idx in
              if (1 <? s_rows Xc) && l_many L yc
              then shfit fuel' (lvl + 1) (path ++ [b]) (Some prior_c) Xc yc
              else Ok (Leaf (mkInfo (Some prior_c) (lvl + 1) (s_rows Xc) None (l_post L prior yc))) in
            let! c1 := child false prior1 indices1 y1 in
            let! c2 := child true prior2 indices2 y2 in
            Ok (Split inf pl no_split (o_best st) c1 c2)
          else Ok (Leaf inf)
      end
  end%nat.

Definition sparse_hfit (same : ninfo P -> ninfo P -> bool) (do_prune : bool) (lvl : nat) (pa : option P)
    (M : smat R) (y : list R) : res tree :=
  let! t := shfit (Datatypes.S (s_rows M)) lvl [] pa M y in
  if do_prune then prune same t else Ok t.
End HyperFit.
