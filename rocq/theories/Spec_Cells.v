(** * Spec_Cells: tables with more cells. *)
From Verif Require Import Base Cst Parser Spec_Parse.

(** Every row of the first table is a row of the second one, and has all its
    cells there; the second one may have more rows, and more cells in them. *)
Definition more_cells (t1 t2 : table) : Prop :=
  forall n r1, table_get n t1 = Some r1 ->
    exists r2, table_get n t2 = Some r2 /\
      forall c ops, row_get c r1 = Some ops -> row_get c r2 = Some ops.

(** The two errors that report a cell or row that is not there. *)
Definition missing_cell (e : perror) : Prop :=
  (exists n, e = ENoRulesForNonTerminal n) \/ (exists c n, e = ENoRulesForByte c n).
