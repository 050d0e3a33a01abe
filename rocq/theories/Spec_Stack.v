(** * Spec_Stack: what Parse keeps in memory while it runs. *)
From Verif Require Import Base Cst Parser Spec_Size.

(** [after k st]: the loop has gone through k iterations and stands at [st]. *)
Inductive after (tbl : table) (text : bytes) (names : names_map) : nat -> pstate -> Prop :=
| af_start : after tbl text names 0 init_state
| af_step k st st' :
    after tbl text names k st -> step tbl text names st = SNext st' -> after tbl text names (S k) st'.

(** The operands that wait, and the nodes made so far (with everything below
    them). *)
Definition waiting (st : pstate) : nat := length (ps_ops st).
Definition nodes_made (st : pstate) : nat := list_sum (map nodes (ps_prods st)).

(** No cell of the table has more than [w] operands, and no terminal in it more
    than [w] bytes. *)
Definition width_at_most (w : nat) (tbl : table) : Prop :=
  forall n r c ops, table_get n tbl = Some r -> row_get c r = Some ops ->
    length ops <= w /\ forall t, In (OpTerminal t) ops -> length t <= w.
