(** * Validate: input conversion and validation (base.py:57-66, 199-245; classification.py:48-54;
    regression.py:25-27). *)
From Coq Require Import Reals.
From Verif Require Import Prelude RealOps.
Local Open Scope nat_scope.

(** dtypes; [Other] stands for every dtype not listed at base.py:227-230 (bool, float16, object, str, ...). *)
Inductive dtype := I8 | I16 | I32 | I64 | U8 | U16 | U32 | U64 | F32 | F64 | Other.
Definition supported (t : dtype) : bool := match t with Other => false | _ => true end.

(** An array with elements in row-major order. *)
Record arr (E : Type) := mkArr { a_shape : list nat; a_dtype : dtype; a_data : list E }.
Arguments mkArr {E}.
Arguments a_shape {E}.
Arguments a_dtype {E}.
Arguments a_data {E}.
Definition ndim {E} (a : arr E) : nat := length (a_shape a).
(** [len(a)] of a one-dimensional array; [a.shape[0]]. *)
Definition len {E} (a : arr E) : nat := hd 0 (a_shape a).
(** [a.squeeze()]. *)
Definition squeeze {E} (a : arr E) : arr E := mkArr (filter (fun n => negb (Nat.eqb n 1)) (a_shape a)) (a_dtype a) (a_data a).
(** [np.expand_dims(a, 0)]. *)
Definition expand_dims {E} (a : arr E) : arr E := mkArr (1 :: a_shape a) (a_dtype a) (a_data a).

Fixpoint mapM {A B} (f : A -> res B) (l : list A) : res (list B) :=
  match l with
  | [] => Ok []
  | a :: l' => let! b := f a in let! bs := mapM f l' in Ok (b :: bs)
  end.

(** How array elements are read as numbers: [as_is] for supported dtypes; otherwise the cast
    [astype(np.float64)] of one element, which may raise, and the comparison [data == X_float]. *)
Record cast (E A : Type) := { as_is : E -> A; astype : E -> res A; unchanged : E -> A -> bool }.
Arguments as_is {E A}.
Arguments astype {E A}.
Arguments unchanged {E A}.

(** base.py:225-238 [_ensure_float64]. *)
Definition ensure_float64 {E A} (c : cast E A) (a : arr E) : res (arr A) :=
  if supported (a_dtype a) then Ok (mkArr (a_shape a) (a_dtype a) (map (as_is c) (a_data a)))
  else
    let! xs := mapM (astype c) (a_data a) in
    if forallb (fun p => unchanged c (fst p) (snd p)) (combine (a_data a) xs)
    then Ok (mkArr (a_shape a) F64 xs) else Err ValueError.

(** Arguments [X]: a data frame (its values and column names), a list (given by the array NumPy makes of
    it), a scalar, or an array; a sparse matrix takes the path of a two-dimensional array (see Sparse.v for
    how its entries are read).
    Simplification: [_ensure_float64] of sparse matrices of unsupported dtype is not modelled. *)
Inductive xin (E NM : Type) := XFrame (values : arr E) (columns : list NM) | XList (a : arr E) | XScalar (t : dtype) (e : E) | XArray (a : arr E).
Arguments XFrame {E NM}.
Arguments XList {E NM}.
Arguments XScalar {E NM}.
Arguments XArray {E NM}.

(** base.py:199-223 [_normalize_data_and_feature_names]; [x_name i] is ['x{}'.format(i)]. *)
Definition normalize {E A NM} (c : cast E A) (x_name : nat -> NM) (x : xin E NM) (names : option (list NM))
    : res (arr A * list NM) :=
  let! p :=
    match x with
    | XFrame a cols => Ok (a, match names with None => cols | Some nms => nms end)
    | XList a | XArray a =>
        let a1 := if Nat.eqb (ndim a) 1 then expand_dims a else a in
        match names with
        | Some nms => Ok (a1, nms)
        | None => match a_shape a1 with
                  | _ :: cols :: _ => Ok (a1, map x_name (seq 0 cols))
                  | _ => Err IndexError                    (* X.shape[1] *)
                  end
        end
    | XScalar t e =>
        let a1 := mkArr [1; 1] t [e] in
        Ok (a1, match names with Some nms => nms | None => map x_name (seq 0 1) end)
    end in
  let! a2 := ensure_float64 c (fst p) in
  if Nat.eqb (ndim a2) 2 then Ok (a2, snd p) else Err ValueError.

(** Target values: floats, [None] for nan. *)
Definition fl : Type := option R.
Definition fl_eqb (a b : fl) : bool := match a, b with Some x, Some y => Reqb x y | _, _ => false end.

(** [np.unique(y)]: sorted, without duplicates, nan last. *)
Fixpoint uinsert (r : R) (l : list R) : list R :=
  match l with
  | [] => [r]
  | x :: t => if Rltb r x then r :: l else if Reqb r x then l else x :: uinsert r t
  end.
Fixpoint numbers (l : list fl) : list R :=
  match l with [] => [] | Some r :: t => r :: numbers t | None :: t => numbers t end.
Definition is_nan (a : fl) : bool := match a with None => true | _ => false end.
Definition np_unique (l : list fl) : list fl :=
  map Some (fold_right uinsert [] (numbers l)) ++ (if existsb is_nan l then [None] else []).

(** [np.all(u == v)] for one-dimensional arrays, with broadcasting.  Shapes that do not match give
    False up to NumPy 1.24 and raise ValueError later; both end in ValueError at the only use below. *)
Definition all_equal (u v : list fl) : bool :=
  if Nat.eqb (length u) (length v) then forallb (fun p => fl_eqb (fst p) (snd p)) (combine u v)
  else match u, v with
       | [a], _ => forallb (fl_eqb a) v
       | _, [b] => forallb (fun a => fl_eqb a b) u
       | _, _ => false
       end.

(** classification.py:48-54 [_check_target]; [prior] is [self.prior]. *)
Definition clf_check_target {P} (n_classes : P -> nat) (prior : option P) (y : arr fl) : res unit :=
  if negb (Nat.eqb (ndim y) 1) then Err ValueError
  else match prior with
       | None => Err TypeError                              (* len(None) *)
       | Some p =>
           if all_equal (np_unique (a_data y)) (map (fun i => Some (INR i)) (seq 0 (n_classes p)))
           then Ok tt else Err ValueError
       end.
(** regression.py:25-27 [_check_target]. *)
Definition reg_check_target (y : arr fl) : res unit :=
  if negb (Nat.eqb (ndim y) 1) then Err ValueError else Ok tt.

(** A validated training set. *)
Record valid (A Y NM : Type) := mkValid { v_X : arr A; v_y : arr Y; v_names : list NM }.
Arguments mkValid {A Y NM}.
Arguments v_X {A Y NM}.
Arguments v_y {A Y NM}.
Arguments v_names {A Y NM}.

(** base.py:57-66: validation at the start of [fit].  [y] is a list (given by the array NumPy makes of it) or an
    array; [check] is [self._check_target].
    Simplification: pandas targets are not modelled. *)
Definition validate {E A Y NM} (cx : cast E A) (cy : cast E Y) (x_name : nat -> NM) (check : arr Y -> res unit)
    (x : xin E NM) (y : arr E) (names : option (list NM)) : res (valid A Y NM) :=
  let! y1 := ensure_float64 cy (squeeze y) in
  let! _ := check y1 in
  let! p := normalize cx x_name x names in
  if Nat.eqb (len (fst p)) (len y1) then Ok (mkValid (fst p) y1 (snd p)) else Err ValueError.

(** [X[i, d]] of a two-dimensional array, its number of columns, and [y[i]]; [dflt] is never read for indices in
    range. *)
Definition cols {A} (a : arr A) : nat := nth 1 (a_shape a) 0.
Definition entry {A} (dflt : A) (a : arr A) (i d : nat) : A := nth (i * cols a + d) (a_data a) dflt.
Definition target {A Y NM} (dflt : Y) (v : valid A Y NM) (i : nat) : Y := nth i (a_data (v_y v)) dflt.
