(** * Spec_Lead: terminals with the same first byte, and alternatives that
    start with a terminal whose first byte is zero. *)
From Verif Require Import Base Ast Parser.

(** Terminals may differ behind their first byte; everything else is the same. *)
Inductive same_lead : symbol -> symbol -> Prop :=
| sl_terminal c u u' : same_lead (STerminal (c :: u)) (STerminal (c :: u'))
| sl_same x : same_lead x x.
Definition same_leads (g g' : grammar) : Prop :=
  Forall2 (fun r r' => r_head r' = r_head r /\ Forall2 (Forall2 same_lead) (r_tail r) (r_tail r')) g g'.

(** Operands and tables: the same rows and cells, and in each cell as many
    operands, of which only terminals may differ, behind their first byte. *)
Inductive same_lead_op : ParserOp -> ParserOp -> Prop :=
| so_terminal c u u' : same_lead_op (OpTerminal (c :: u)) (OpTerminal (c :: u'))
| so_same op : same_lead_op op op.
Definition same_lead_table (t t' : table) : Prop :=
  forall n c,
    (table_get n t = None <-> table_get n t' = None) /\
    forall r r', table_get n t = Some r -> table_get n t' = Some r' ->
      match row_get c r, row_get c r' with
      | Some l, Some l' => Forall2 same_lead_op l l'
      | None, None => True
      | _, _ => False
      end.

(** An alternative that starts with a terminal whose first byte is zero, with
    no non-terminal behind it. *)
Definition starts_with_zero (s : sequence) : Prop :=
  exists v rest, s = STerminal (NUL :: v) :: rest /\ forall n, ~ In (SNonTerminal n) rest.
(** Such alternatives replaced by the empty alternative (some or all of them). *)
Definition zero_as_empty (g g' : grammar) : Prop :=
  Forall2 (fun r r' => r_head r' = r_head r /\
             Forall2 (fun s s' => s' = s \/ (starts_with_zero s /\ s' = [SNothing])) (r_tail r) (r_tail r')) g g'.
