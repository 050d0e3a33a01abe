(** * Spec_GenTime: the size of a grammar, for the running time of FromGrammar. *)
From Verif Require Import Base Ast.

(** One per alternative and one per symbol in it. *)
Definition alternatives_size (tl : substitution) : nat := list_sum (map (fun s => S (length s)) tl).
(** One more per rule. *)
Definition grammar_size (g : grammar) : nat := list_sum (map (fun r => S (alternatives_size (r_tail r))) g).

(** A family of grammars: <r> ::= <r..r>, <rr> ::= "x", <rrr> ::= <rr>, ...; the
    member with number [k] has [S k] rules. *)
Definition slow_x : ascii := "x"%char.
Definition slow_name (i : nat) : bytes := repeat "r"%char (S i).
Definition slow (k : nat) : grammar :=
  mkRule (slow_name 0) [[SNonTerminal (slow_name k)]] ::
  map (fun i => mkRule (slow_name (S i)) [[match i with 0 => STerminal [slow_x] | S _ => SNonTerminal (slow_name i) end]])
      (seq 0 k).
