(** * Spec_Time: the size of a grammar. *)
From Verif Require Import Base Ast.

(** Two per symbol and one per byte of a terminal. *)
Definition symbol_cost (x : symbol) : nat :=
  match x with STerminal t => length t + 2 | _ => 2 end.
Definition sequence_cost (s : sequence) : nat := list_sum (map symbol_cost s).
(** The largest alternative of the grammar. *)
Definition largest_alternative (g : grammar) : nat :=
  list_max (map sequence_cost (flat_map r_tail g)).
