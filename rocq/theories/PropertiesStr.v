(** * Properties of printed trees (C48). *)
From Coq Require Import String.
From Verif Require Import Prelude Tree Perp Spec Str StrSpec StrProofs StrWitness.

(** ** C48 *)
Theorem C48_unfitted {D S P} prefix split_text pred_text mean_text :
  str_model (D:=D) (S:=S) (P:=P) prefix split_text pred_text mean_text None = lit "Unfitted model"%string.
Proof. exact eq_refl. Qed.
Print Assumptions C48_unfitted.
(** For any formatting of the pieces: the texts of the nodes in depth-first order, each on new lines. *)
Theorem C48_dfs {D S P} prefix split_text pred_text mean_text (t : tree D S P) :
  lines (str_model prefix split_text pred_text mean_text (Some t)) =
  flat_map (fun x => lines (line_of prefix split_text (leaf_line pred_text mean_text) x)) (dfs t [] None).
Proof. exact (model_lines prefix split_text pred_text mean_text t). Qed.
Print Assumptions C48_dfs.
(** One line per node if no formatted piece contains a newline. *)
Theorem C48_one_line_per_node {D S P} prefix split_text pred_text mean_text (t : tree D S P) :
  (forall d b, In d (descs t) -> one_line (prefix d b) /\ one_line (split_text d)) ->
  (forall i, In i (leaves t) -> one_line (pred_text (i_post i))) ->
  (forall f i, mean_text = Some f -> In i (leaves t) -> one_line (f (i_post i))) ->
  let ls := lines (str_model prefix split_text pred_text mean_text (Some t)) in
  ls = map (line_of prefix split_text (leaf_line pred_text mean_text)) (dfs t [] None) /\ length ls = size t.
Proof. exact (model_one_line prefix split_text pred_text mean_text t). Qed.
Print Assumptions C48_one_line_per_node.
Example C48_case : (forall d b, In d (descs str_tree) ->
    one_line (perp_prefix str_val d b) /\ one_line (perp_split str_name str_val d)) /\
  (forall i, In i (leaves str_tree) -> one_line (str_pred (i_post i))).
Proof. exact str_ex_ok. Qed.
Example C48_text : map ascii_art (lines str_ex) =
  ["a=6"; " T <6: b=3"; " I T <3: y=0, n=3"; " I L G3: y=1, n=2"; " L G6: y=2, n=4"]%string.
Proof. exact str_ex_lines. Qed.
Example C48_wrapped : exists (mean : list nat -> text),
  let s := str_model (perp_prefix str_val) (perp_split str_name str_val) str_pred (Some mean) (Some str_tree) in
  size str_tree = 5 /\ length (lines s) = 8.
Proof. exact str_wrapped. Qed.
