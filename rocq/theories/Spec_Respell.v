(** * Spec_Respell: the same literals, cut into shorter ones. *)
From Verif Require Import Base Ast Cst Parser Spec_Grammar.

(** [cut t parts]: the text [t] in one or more non-empty pieces. *)
Definition cut (t : bytes) (parts : list bytes) : Prop :=
  parts <> [] /\ Forall (fun u => u <> []) parts /\ concat parts = t.

(** A symbol is left as it is, or is a terminal written as several terminals
    side by side:  "while"  as  "wh" "ile". *)
Inductive respelled_symbol : symbol -> list symbol -> Prop :=
| rs_same x : respelled_symbol x [x]
| rs_cut t parts : cut t parts -> respelled_symbol (STerminal t) (map STerminal parts).
Definition respelled_sequence (s s' : sequence) : Prop :=
  exists blocks, Forall2 respelled_symbol s blocks /\ s' = concat blocks.
(** The same heads, and the same alternatives in the same order, but for that. *)
Definition respelled_rule (r r' : rule) : Prop :=
  r_head r' = r_head r /\ Forall2 respelled_sequence (r_tail r) (r_tail r').
Definition respelled_grammar (g g' : grammar) : Prop := Forall2 respelled_rule g g'.

(** The same for the operands in the cells of a table. *)
Inductive respelled_op : ParserOp -> list ParserOp -> Prop :=
| ro_same op : respelled_op op [op]
| ro_cut t parts : cut t parts -> respelled_op (OpTerminal t) (map OpTerminal parts).
Definition respelled_ops (l l' : list ParserOp) : Prop :=
  exists blocks, Forall2 respelled_op l blocks /\ l' = concat blocks.
Definition respelled_row (r r' : row) : Prop :=
  forall c, match row_get c r, row_get c r' with
            | Some l, Some l' => respelled_ops l l'
            | None, None => True
            | _, _ => False
            end.
Definition respelled_table (t t' : table) : Prop :=
  forall n, match table_get n t, table_get n t' with
            | Some r, Some r' => respelled_row r r'
            | None, None => True
            | _, _ => False
            end.

(** Trees: some literals are several literals, one behind the other, which
    together cover the same bytes; everything else is the same. *)
Inductive pieces : Z -> list node -> Z -> Prop :=
| pc_last p q : (p < q)%Z -> pieces p [Node (-1) p q []] q
| pc_more p m q l : (p < m)%Z -> pieces m l q -> pieces p (Node (-1) p m [] :: l) q.
Inductive respelled_tree : node -> node -> Prop :=
| rt_node ty p q l l' : respelled_trees l l' -> respelled_tree (Node ty p q l) (Node ty p q l')
with respelled_trees : list node -> list node -> Prop :=
| rts_nil : respelled_trees [] []
| rts_cons t t' l l' :
    respelled_tree t t' -> respelled_trees l l' -> respelled_trees (t :: l) (t' :: l')
| rts_literal p q parts l l' :
    pieces p parts q -> respelled_trees l l' -> respelled_trees (Node (-1) p q [] :: l) (parts ++ l').
