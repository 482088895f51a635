(** * Verbose: fitting with [verbose=True] (base.py:28-74, base_perpendicular.py:76-189, base_hyperplane.py:22-121). *)
From Coq Require Import Reals String.
From Verif Require Import Prelude Tree Perp RealOps Clf Reg Api Hyper Str.
Local Open Scope nat_scope.

(** base_perpendicular.py:79-81, base_hyperplane.py:27-29: one printed line, without the line break that [print] adds.
    ['{:10}'] of an int pads with blanks on the left up to ten characters. *)
Definition pad10 (s : text) : text := repeat SP (10 - List.length s) ++ s.
Definition train_line (lvl : nat) (side : string) (n_data : nat) : text :=
  lit "Training "%string ++ (lit "level "%string ++ dec lvl ++ lit " "%string ++ lit side) ++ lit " with "%string ++ pad10 (dec n_data) ++
  lit " data points"%string.

(** A computation that prints lines and then returns a value or raises an exception. *)
Definition io (A : Type) : Type := list text * res A.
Definition io_bind {A B} (m : io A) (f : A -> io B) : io B :=
  match snd m with Ok a => (fst m ++ fst (f a), snd (f a)) | Err e => (fst m, Err e) end.
Definition io_res {A} (r : res A) : io A := ([], r).
Notation "'do!' x := m 'in' k" := (io_bind m (fun x => k)) (at level 200, x name, m at level 100, k at level 200).
Definition say (verbose : bool) (l : text) : io unit := (if verbose then [l] else [], Ok tt).

Section Perp.
Context {A V Y P S NM : Type}.
Variable F : feat A V.
Variable L : lik Y P S.
Variable X : nat -> nat -> A.
Variable y : nat -> Y.
Variable names : list NM.
Variables (n : nat) (verbose : bool).
Notation tree := (tree (pdesc NM V) S P).

(** base_perpendicular.py:76-189 [_fit] with its printing; [side] is [side_name], [n] the number of rows of [X], which is what
    line 77 uses if the matrix has no columns. *)
Fixpoint pfit_v (fuel : nat) (side : string) (lvl : nat) (prior_attr : option P) (idxs : list (list nat)) : io tree :=
  match fuel with
  | 0 => io_res (Err OutOfFuel)
  | Datatypes.S fuel' =>
      do! _ := say verbose (train_line lvl side (match idxs with [] => n | row0 :: _ => List.length row0 end)) in
      match idxs with
      | [] => io_res (Err IndexError)                              (* line 103: sort_indices_by_dim[0] *)
      | row0 :: _ =>
          let n_dim := List.length idxs in
          let n_data := List.length row0 in
          let prior := l_prior L prior_attr n_data n_dim in
          let y_any := gather y row0 in
          let no_split := l_no_split L lvl prior y_any in
          let bst := scan F L X y lvl prior idxs no_split in
          let inf := mkInfo prior_attr lvl n_data (Some n_dim) (l_post L prior y_any) in
          if (0 <? b_idx bst)%Z then
            let dim := Z.to_nat (b_dim bst) in
            let row := nth dim idxs [] in
            let indices1 := firstn (Z.to_nat (b_idx bst)) row in
            let indices2 := skipn (Z.to_nat (b_idx bst)) row in
            let prior1 := l_child_prior L prior (gather y indices1) in
            let prior2 := l_child_prior L prior (gather y indices2) in
            match nth_error names dim with
            | None => io_res (Err IndexError)                      (* line 145: feature_names[...] *)
            | Some nm =>
                let v := f_mid F (X (last indices1 0) dim) (X (hd 0 indices2) dim) in
                do! sub1 := io_res (sub_indices idxs indices1) in
                do! sub2 := io_res (sub_indices idxs indices2) in
                let child (side_c : string) (prior_c : P) (indices : list nat) (sub : list (list nat)) : io tree :=
                  let n_c := List.length (hd [] sub) in
                  let ys := gather y indices in
                  if (1 <? n_c) && l_many L ys
                  then pfit_v fuel' side_c (lvl + 1) (Some prior_c) sub
                  else io_res (Ok (Leaf (mkInfo (Some prior_c) (lvl + 1) n_c None (l_post L prior ys)))) in
                do! c1 := child "LHS"%string prior1 indices1 sub1 in
                do! c2 := child "RHS"%string prior2 indices2 sub2 in
                io_res (Ok (Split inf (mkDesc dim nm v) no_split (b_score bst) c1 c2))
            end
          else io_res (Ok (Leaf inf))
      end
  end.
End Perp.

(** base.py:68-74: the part of [fit] after validation; [_prune] prints nothing. *)
Definition perp_fit_v {A V Y P S} (F : feat A V) (L : lik Y P S) (same : ninfo P -> ninfo P -> bool)
    (do_prune : bool) (lvl : nat) (pa : option P) (verbose : bool) (d : tset A Y) : io (tree (pdesc string V) S P) :=
  do! t := pfit_v F L (ts_X d) (ts_y d) (ts_names d) (ts_n d) verbose (Datatypes.S (ts_n d)) "root"%string lvl pa
             (root_indices F (ts_X d) (ts_n d) (ts_dim d)) in
  io_res (if do_prune then prune same t else Ok t).

Section Hyper.
Context {W C N O J E Y P S : Type}.
Variable G : geo W C N O J E.
Variable L : lik Y P S.
Variable post : R -> P -> list Y -> P.
Variable X : nat -> W.
Variable y : nat -> Y.
Variable n_dim : nat.
Variable cands : list bool -> list C.
Variable verbose : bool.
Notation tree := (tree (plane N O) S P).

(** base_hyperplane.py:22-121 [_fit] with its printing.  Anything an optimizer prints itself is not modelled. *)
Fixpoint hfit_v (fuel : nat) (side : string) (lvl : nat) (path : list bool) (pa : option P) (rows : list nat) : io tree :=
  match fuel with
  | 0 => io_res (Err OutOfFuel)
  | Datatypes.S fuel' =>
      let n_data := List.length rows in
      let prior := l_prior L pa n_data n_dim in
      do! _ := say verbose (train_line lvl side n_data) in
      let ys := map y rows in
      let no_split := l_no_split L lvl prior ys in
      let st := opt_run G L X y n_dim lvl prior rows no_split (cands path) in
      let inf := mkInfo pa lvl n_data (Some n_dim) (l_post L prior ys) in
      match o_plane st with
      | None => io_res (Ok (Leaf inf))
      | Some pl =>
          let rows1 := filter (fun i => g_back G (p_normal pl) (p_origin pl) (X i)) rows in
          let rows2 := filter (fun i => g_front G (p_normal pl) (p_origin pl) (X i)) rows in
          if (0 <? List.length rows1) && (0 <? List.length rows2) then
            let prior1 := post 0%R prior (map y rows1) in
            let prior2 := post 0%R prior (map y rows2) in
            let child (side_c : string) (b : bool) (prior_c : P) (rows_c : list nat) : io tree :=
              let ys_c := map y rows_c in
              if (1 <? List.length rows_c) && l_many L ys_c
              then hfit_v fuel' side_c (lvl + 1) (path ++ [b]) (Some prior_c) rows_c
              else io_res (Ok (Leaf (mkInfo (Some prior_c) (lvl + 1) (List.length rows_c) None (l_post L prior ys_c)))) in
            do! c1 := child "back "%string false prior1 rows1 in
            do! c2 := child "front"%string true prior2 rows2 in
            io_res (Ok (Split inf pl no_split (o_best st) c1 c2))
          else io_res (Ok (Leaf inf))
      end
  end.
End Hyper.

Definition hyper_fit_v {W C N O J E Y P S} (G : geo W C N O J E) (L : lik Y P S) (post : R -> P -> list Y -> P)
    (same : ninfo P -> ninfo P -> bool) (do_prune : bool) (lvl : nat) (pa : option P)
    (cands : list bool -> list C) (verbose : bool) (d : hset W Y) : io (tree (plane N O) S P) :=
  do! t := hfit_v G L post (hs_X d) (hs_y d) (hs_dim d) cands verbose (Datatypes.S (hs_n d)) "root"%string lvl [] pa (seq 0 (hs_n d)) in
  io_res (if do_prune then prune same t else Ok t).

(** [fit(X, y, verbose=verbose)] of the four classes in exact arithmetic, after validation. *)
Definition clf_fit_v (srt : (nat -> R) -> nat -> list nat) (h : hyper (list R)) (verbose : bool) (d : tset R R) : io ctree :=
  perp_fit_v (feat_R (h_prec h) srt) (clf_lik (h_pp h) (h_delta h)) clf_same (h_prune h) 0 (h_prior h) verbose d.
Definition reg_fit_v (srt : (nat -> R) -> nat -> list nat) (h : hyper ng) (verbose : bool) (d : tset R R) : io rtree :=
  perp_fit_v (feat_R (h_prec h) srt) (reg_lik (h_pp h) (h_delta h)) reg_same (h_prune h) 0 (h_prior h) verbose d.
Definition hclf_fit_v {C} (pre : C -> list R) (srt : (nat -> R) -> nat -> list nat) (cands : list bool -> list C)
    (h : hyper (list R)) (verbose : bool) (d : hset (list R) R) : io hctree :=
  hyper_fit_v (geo_R pre (h_prec h) srt) (clf_lik (h_pp h) (h_delta h)) clf_posterior clf_same (h_prune h) 0 (h_prior h) cands verbose d.
Definition hreg_fit_v {C} (pre : C -> list R) (srt : (nat -> R) -> nat -> list nat) (cands : list bool -> list C)
    (h : hyper ng) (verbose : bool) (d : hset (list R) R) : io hrtree :=
  hyper_fit_v (geo_R pre (h_prec h) srt) (reg_lik (h_pp h) (h_delta h)) reg_posterior reg_same (h_prune h) 0 (h_prior h) cands verbose d.
