(** * ReadSpec: a reader of printed trees. *)
From Coq Require Import String.
From Verif Require Import Prelude Tree Str StrSpec.

(** What a reader of the text learns about a tree: a leaf shows its prediction, its number of rows and, for classification,
    its class probabilities; a split shows two texts. *)
Inductive shown : Type :=
  | SLeaf (pred : text) (n : nat) (proba : option text)
  | SSplit (fst_ snd_ : text) (c1 c2 : shown).

(** Text before and after the first [c]. *)
Fixpoint cut (c : N) (s : text) : option (text * text) :=
  match s with
  | [] => None
  | a :: r => if N.eqb a c then Some ([], r) else match cut c r with Some (x, y) => Some (a :: x, y) | None => None end
  end.
(** Text before and after the last [c]. *)
Definition cut_last (c : N) (s : text) : option (text * text) :=
  match cut c (rev s) with Some (x, y) => Some (rev y, rev x) | None => None end.
(** The text without the given beginning. *)
Fixpoint skip (p s : text) : option text :=
  match p, s with
  | [], _ => Some s
  | a :: p', b :: s' => if N.eqb a b then skip p' s' else None
  | _ :: _, [] => None
  end.
(** Decimal numbers. *)
Definition read_nat (s : text) : nat := fold_left (fun n c => 10 * n + N.to_nat (c - 48)) s 0.

Definition EQ : N := 61.
Definition COMMA : N := 44.

Definition bind {A B} (x : option A) (f : A -> option B) : option B := match x with Some a => f a | None => None end.
Notation "'do' p <- x ; k" := (bind x (fun p => k)) (at level 200, p pattern, x at level 100, k at level 200).

(** "y=<prediction>, n=<number>[, p(y)=<probabilities>]". *)
Definition read_leaf (classes : bool) (s : text) : option shown :=
  do s1 <- skip (lit "y="%string) s;
  do (p, s2) <- cut COMMA s1;
  do s3 <- skip (lit " n="%string) s2;
  if classes then
    do (n, s4) <- cut COMMA s3;
    do m <- skip (lit " p(y)="%string) s4;
    Some (SLeaf p (read_nat n) (Some m))
  else Some (SLeaf p (read_nat s3) None).

(** "<name>=<threshold>"; the children say "<" and ">=" followed by the threshold. *)
Definition read_perp_split (s : text) : option (text * text) := cut_last EQ s.
Definition perp_side (x : text * text) (first : bool) : text :=
  SP :: (if first then lit "<"%string else GEQ) ++ snd x ++ lit ": "%string.
(** "HP(origin=<origin>, normal=<normal>)"; the children say "back " and "front". *)
Definition read_hyper_split (s : text) : option (text * text) :=
  do s1 <- skip (lit "HP(origin="%string) s;
  do (o, s2) <- cut COMMA s1;
  do s3 <- skip (lit " normal="%string) s2;
  do (n, _) <- cut_last 41 s3;
  Some (o, n).
Definition hyper_side (_ : text * text) (first : bool) : text := lit (if first then " back : " else " front: ")%string.

Section Read.
Variable read_split : text -> option (text * text).
Variable side : text * text -> bool -> text.
Variable classes : bool.

(** Reads the node at position [turns], below the split [parent], from the front of the lines; returns the node and the other lines.
    The node is a split if the next line belongs to its first child. *)
Fixpoint read (fuel : nat) (turns : list bool) (parent : option (text * text)) (ls : list text) : option (shown * list text) :=
  match fuel, ls with
  | S fuel', l :: r =>
      do s <- skip (drawing turns) l;
      do body <- skip (match parent with Some x => side x (last turns false) | None => [] end) s;
      match r with
      | l2 :: _ =>
          match skip (drawing (turns ++ [true])) l2 with
          | Some _ =>
              do x <- read_split body;
              do (c1, r1) <- read fuel' (turns ++ [true]) (Some x) r;
              do (c2, r2) <- read fuel' (turns ++ [false]) (Some x) r1;
              Some (SSplit (fst x) (snd x) c1 c2, r2)
          | None => do t <- read_leaf classes body; Some (t, r)
          end
      | [] => do t <- read_leaf classes body; Some (t, [])
      end
  | _, _ => None
  end.
(** Reads a whole text. *)
Definition read_tree (s : text) : option shown :=
  match read (length (lines s)) [] None (lines s) with Some (t, []) => Some t | _ => None end.
End Read.

(** What the nodes of a tree show, for a given formatting of the pieces. *)
Fixpoint shows {D S P} (f1 f2 : D -> text) (pred : P -> text) (mean : option (P -> text)) (t : tree D S P) : shown :=
  match t with
  | Leaf i => SLeaf (pred (i_post i)) (i_n_data i) (option_map (fun f => f (i_post i)) mean)
  | Split _ d _ _ c1 c2 => SSplit (f1 d) (f2 d) (shows f1 f2 pred mean c1) (shows f1 f2 pred mean c2)
  end.

(** Formatted numbers and arrays of numbers are on one line and have neither "=" nor ",". *)
Definition plain (s : text) : Prop := one_line s /\ ~ In EQ s /\ ~ In COMMA s.
(** [f] distinguishes what occurs in two lists. *)
Definition tells {A} (f : A -> text) (l l' : list A) : Prop := forall a b, In a l -> In b l' -> f a = f b -> a = b.
