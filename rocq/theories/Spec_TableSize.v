(** * Spec_TableSize: the size of a table, and of the grammar it is made from. *)
From Verif Require Import Base Ast Parser.

(** The symbols in all alternatives of a rule, and of a grammar. *)
Definition rule_symbols (r : rule) : nat := list_sum (map (@length symbol) (r_tail r)).
Definition grammar_symbols (g : grammar) : nat := list_sum (map rule_symbols g).

(** The cells of a table that are present, and all operands in them. *)
Definition row_operands (r : row) : nat := list_sum (map (fun c => length (snd c)) r).
Definition table_cells (t : table) : nat := list_sum (map (fun r => length (snd r)) t).
Definition table_operands (t : table) : nat := list_sum (map (fun r => row_operands (snd r)) t).

(** A family of grammars of two rules: <a> ::= <b> "x" ... "x" ([k] times "x"),
    and <b> ::= any byte but 0. *)
Definition any_byte_but_0 : substitution := map (fun i => [STerminal [ascii_of_nat i]]) (seq 1 255).
Definition wide (k : nat) : grammar :=
  [mkRule ["a"%char] [SNonTerminal ["b"%char] :: repeat (STerminal ["x"%char]) k];
   mkRule ["b"%char] any_byte_but_0].
