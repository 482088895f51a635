(** * Perp: fitting of perpendicular trees (base_perpendicular.py:76-189). *)
From Verif Require Import Prelude Tree.

(** Arithmetic on feature values of type [A] and split values of type [V].
    [f_lt x v]   : [x < split_value_]                       (base_perpendicular.py:196)
    [f_ge x v]   : [x >= split_value_]                      (base_perpendicular.py:197)
    [f_mid a b]  : [0.5 * (a + b)]                          (base_perpendicular.py:146-149)
    [f_gap a b]  : [abs(b - a) > split_precision]           (base_perpendicular.py:116)
    [f_argsort col n] : [np.argsort] of a column of length [n] (base_perpendicular.py:99). *)
Record feat (A V : Type) := {
  f_lt : A -> V -> bool;
  f_ge : A -> V -> bool;
  f_mid : A -> A -> V;
  f_gap : A -> A -> bool;
  f_argsort : (nat -> A) -> nat -> list nat
}.
Arguments f_lt {A V}.
Arguments f_ge {A V}.
Arguments f_mid {A V}.
Arguments f_gap {A V}.
Arguments f_argsort {A V}.

(** The methods a concrete tree type supplies (classification.py / regression.py), for fixed
    hyperparameters [partition_prior] and [delta].
    [l_prior prior n_data n_dim]            : [_get_prior], [prior] being [self.prior]
    [l_no_split level prior ys]             : [_compute_log_p_data_no_split]
    [l_split level prior n_dim ys splits]   : [_compute_log_p_data_split]
    [l_argmax]                              : [log_p_data_split.argmax()]
    [l_gt a b]                              : [a > b]
    [l_ge a b]                              : [a >= b]  (only used by hyperplane trees)
    [l_post prior ys]                       : [_compute_posterior(y, prior)] (delta = 1)
    [l_child_prior prior ys]                : [tuple(_compute_posterior(y, prior, self.delta))
                                              if self.delta != 0 else prior]
    [l_many ys]                             : [len(np.unique(y)) > 1]. *)
Record lik (Y P S : Type) := {
  l_prior : option P -> nat -> nat -> P;
  l_no_split : nat -> P -> list Y -> S;
  l_split : nat -> P -> nat -> list Y -> list nat -> list S;
  l_argmax : list S -> nat;
  l_gt : S -> S -> bool;
  l_ge : S -> S -> bool;
  l_post : P -> list Y -> P;
  l_child_prior : P -> list Y -> P;
  l_many : list Y -> bool
}.
Arguments l_prior {Y P S}.
Arguments l_no_split {Y P S}.
Arguments l_split {Y P S}.
Arguments l_argmax {Y P S}.
Arguments l_gt {Y P S}.
Arguments l_ge {Y P S}.
Arguments l_post {Y P S}.
Arguments l_child_prior {Y P S}.
Arguments l_many {Y P S}.

(** Split descriptor: [split_dimension_], [split_feature_name_], [split_value_]. *)
Record pdesc (NM V : Type) := mkDesc { sd_dim : nat; sd_name : NM; sd_val : V }.
Arguments mkDesc {NM V}.
Arguments sd_dim {NM V}.
Arguments sd_name {NM V}.
Arguments sd_val {NM V}.

(** base_perpendicular.py:92: storage type of the sort index matrix.  Storing index [i] keeps it
    modulo 2^16, 2^32 or 2^64. *)
Definition index_bits (n_data : N) : N :=
  if (n_data <? 2 ^ 16)%N then 16%N else if (n_data <? 2 ^ 32)%N then 32%N else 64%N.
Definition store_index (n_data : nat) (i : nat) : nat :=
  N.to_nat (N.of_nat i mod 2 ^ index_bits (N.of_nat n_data))%N.

(** base_perpendicular.py:116: admissible split positions of a sorted column. *)
Definition split_positions {A} (gap : A -> A -> bool) (xs_sorted : list A) : list nat :=
  map (fun k => 1 + k) (np_where (adjacent gap xs_sorted)).

(** Running best of the loop at base_perpendicular.py:104-130
    ([best_log_p_data_split], [best_split_index], [best_split_dimension]). *)
Record best (S : Type) := mkBest { b_score : S; b_idx : Z; b_dim : Z }.
Arguments mkBest {S}.
Arguments b_score {S}.
Arguments b_idx {S}.
Arguments b_dim {S}.

Section Fit.
Context {A V Y P S NM : Type}.
Variable F : feat A V.
Variable L : lik Y P S.
(** [X i d] is [X[i, d]], [y i] is [y[i]] (dense or CSC, see Sparse.v); indices used by the code are
    always in range (proved), so no IndexError arises from them. *)
Variable X : nat -> nat -> A.
Variable y : nat -> Y.
Variable names : list NM.

Notation tree := (tree (pdesc NM V) S P).

(** base_perpendicular.py:110-130: body of the loop over dimensions.  The [nth_error] misses are
    unreachable when [l_argmax] returns a valid position and [l_split] one score per position. *)
Definition scan_dim (lvl : nat) (prior : P) (n_dim : nat) (bst : best S)
    (dim_row : nat * list nat) : best S :=
  let '(dim, sort_indices) := dim_row in
  let xs := gather (fun i => X i dim) sort_indices in
  let split_indices := split_positions (f_gap F) xs in
  match split_indices with
  | [] => bst                                            (* continue *)
  | _ =>
      let y_sorted := gather y sort_indices in
      let log_p := l_split L lvl prior n_dim y_sorted split_indices in
      let i_max := l_argmax L log_p in
      match nth_error log_p i_max, nth_error split_indices i_max with
      | Some s, Some k =>
          if l_gt L s (b_score bst)
          then mkBest s (Z.of_nat k) (Z.of_nat dim)
          else bst
      | _, _ => bst
      end
  end.

(** base_perpendicular.py:102-130: no-split score and the whole loop. *)
Definition scan (lvl : nat) (prior : P) (idxs : list (list nat)) (no_split : S) : best S :=
  fold_left (scan_dim lvl prior (length idxs))
            (combine (seq 0 (length idxs)) idxs)
            (mkBest no_split (-1) (-1)).

(** base_perpendicular.py:164-165:
    [sort_indices_by_dim[np.isin(sort_indices_by_dim, indices)].reshape(n_dim, -1)]. *)
Definition sub_indices (idxs : list (list nat)) (indices : list nat) : res (list (list nat)) :=
  reshape_rows (length idxs) (filter (fun i => mem i indices) (concat idxs)).

(** base_perpendicular.py:76-189 [_fit].  [prior_attr] is [self.prior], [lvl] is [self.level],
    [idxs] is [sort_indices_by_dim] (one row per dimension).
    Simplification: [verbose] printing is omitted. *)
Fixpoint pfit (fuel : nat) (lvl : nat) (prior_attr : option P) (idxs : list (list nat)) : res tree :=
  match fuel with
  | 0 => Err OutOfFuel
  | Datatypes.S fuel' =>
      match idxs with
      | [] => Err IndexError                              (* line 103: sort_indices_by_dim[0] *)
      | row0 :: _ =>
          let n_dim := length idxs in
          let n_data := length row0 in
          let prior := l_prior L prior_attr n_data n_dim in
          let y_any := gather y row0 in
          let no_split := l_no_split L lvl prior y_any in
          let bst := scan lvl prior idxs no_split in
          let inf := mkInfo prior_attr lvl n_data (Some n_dim) (l_post L prior y_any) in
          if (0 <? b_idx bst)%Z then
            let dim := Z.to_nat (b_dim bst) in
            let row := nth dim idxs [] in
            let indices1 := firstn (Z.to_nat (b_idx bst)) row in
            let indices2 := skipn (Z.to_nat (b_idx bst)) row in
            let prior1 := l_child_prior L prior (gather y indices1) in
            let prior2 := l_child_prior L prior (gather y indices2) in
            match nth_error names dim with
            | None => Err IndexError                      (* line 145: feature_names[...] *)
            | Some nm =>
                let v := f_mid F (X (last indices1 0) dim) (X (hd 0 indices2) dim) in
                let! sub1 := sub_indices idxs indices1 in
                let! sub2 := sub_indices idxs indices2 in
                let child (prior_c : P) (indices : list nat) (sub : list (list nat)) : res tree :=
                  let n_c := length (hd [] sub) in
                  let ys := gather y indices in
                  if (1 <? n_c) && l_many L ys
                  then pfit fuel' (lvl + 1) (Some prior_c) sub
                  else Ok (Leaf (mkInfo (Some prior_c) (lvl + 1) n_c None (l_post L prior ys))) in
                let! c1 := child prior1 indices1 sub1 in
                let! c2 := child prior2 indices2 sub2 in
                Ok (Split inf (mkDesc dim nm v) no_split (b_score bst) c1 c2)
            end
          else Ok (Leaf inf)
      end
  end.

(** base_perpendicular.py:91-99: the initial sort index matrix. *)
Definition root_indices (n n_dim : nat) : list (list nat) :=
  map (fun dim => map (store_index n) (f_argsort F (fun i => X i dim) n)) (seq 0 n_dim).

(** [_fit] as called by [fit] (base.py:69) on an [n] x [n_dim] matrix. *)
Definition pfit_root (lvl : nat) (prior_attr : option P) (n n_dim : nat) : res tree :=
  pfit (Datatypes.S n) lvl prior_attr (root_indices n n_dim).

End Fit.

(** base_perpendicular.py:191-199 for query matrix [X]: the two comparisons. *)
Definition pgo1 {A V NM} (F : feat A V) (X : nat -> nat -> A) (d : pdesc NM V) (i : nat) : bool :=
  f_lt F (X i (sd_dim d)) (sd_val d).
Definition pgo2 {A V NM} (F : feat A V) (X : nat -> nat -> A) (d : pdesc NM V) (i : nat) : bool :=
  f_ge F (X i (sd_dim d)) (sd_val d).
