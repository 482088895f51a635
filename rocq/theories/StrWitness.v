(** * StrWitness: a concrete printed tree. *)
From Coq Require Import String.
From Verif Require Import Prelude Tree Perp Spec Str StrSpec StrProofs.

(** Two splits, three leaves; posteriors are class counts, thresholds are integers. *)
Definition str_tree : tree (pdesc string nat) unit (list nat) :=
  let leaf l n p := Leaf (mkInfo None l n None p) in
  Split (mkInfo None 0 9 (Some 2) [4;4;4]) (mkDesc 0 "a"%string 6) tt tt
    (Split (mkInfo None 1 5 (Some 2) [4;3;1]) (mkDesc 1 "b"%string 3) tt tt (leaf 2 3 [4;1;1]) (leaf 2 2 [1;3;1]))
    (leaf 1 4 [1;2;4]).
Definition str_pred (p : list nat) : text := dec (argmax (fun a b => Nat.ltb b a) p).
Definition str_val (d : pdesc string nat) : text := dec (sd_val d).
Definition str_name (d : pdesc string nat) : text := lit (sd_name d).
Definition str_ex : text := str_model (perp_prefix str_val) (perp_split str_name str_val) str_pred None (Some str_tree).

(** Read back with the three box characters shown as [T], [L], [I] and >= as [G]. *)
Definition ascii_art (s : text) : string :=
  string_of_list_ascii (map (fun c => Ascii.ascii_of_N (if N.eqb c 0x251C then 84 else if N.eqb c 0x2514 then 76
    else if N.eqb c 0x2502 then 73 else if N.eqb c 0x2265 then 71 else c)%N) s).
Lemma str_ex_lines : map ascii_art (lines str_ex) =
  ["a=6"; " T <6: b=3"; " I T <3: y=0, n=3"; " I L G3: y=1, n=2"; " L G6: y=2, n=4"]%string.
Proof. reflexivity. Qed.

Lemma str_ex_ok : (forall d b, In d (descs str_tree) ->
    one_line (perp_prefix str_val d b) /\ one_line (perp_split str_name str_val d)) /\ (forall i, In i (leaves str_tree) -> one_line (str_pred (i_post i))).
Proof.
  assert (L : forall s, forallb (fun c => negb (N.eqb c NL)) s = true -> one_line s).
  { intros s H Hin. rewrite forallb_forall in H. apply H in Hin. discriminate. }
  split.
  - intros d b [<-|[<-|[]]]; destruct b; split; apply L; reflexivity.
  - intros i _. apply dec_one.
Qed.
(** A class-probability text containing a newline (NumPy wraps arrays at 75 characters) adds lines. *)
Lemma str_wrapped : exists (mean : list nat -> text),
  let s := str_model (perp_prefix str_val) (perp_split str_name str_val) str_pred (Some mean) (Some str_tree) in
  size str_tree = 5 /\ length (lines s) = 8.
Proof. exists (fun _ => lit "[0.1"%string ++ [NL] ++ lit " 0.2]"%string). split; reflexivity. Qed.
