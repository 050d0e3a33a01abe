(** * Spec_Combine: two grammars put together. *)
From Verif Require Import Base Ast Spec_Grammar.

(** No name is defined by both grammars, and [top] by neither. *)
Definition apart (top : bytes) (g1 g2 : grammar) : Prop := NoDup (top :: heads g1 ++ heads g2).

(** [top ::= start1 | start2], followed by the rules of both grammars. *)
Definition choice (top : bytes) (g1 g2 : grammar) : grammar :=
  mkRule top [[SNonTerminal (start g1)]; [SNonTerminal (start g2)]] :: g1 ++ g2.
(** [top ::= start1 start2], followed by the rules of both grammars. *)
Definition in_sequence (top : bytes) (g1 g2 : grammar) : grammar :=
  mkRule top [[SNonTerminal (start g1); SNonTerminal (start g2)]] :: g1 ++ g2.

(** What follows the rules of [g1] when a word of [g2] comes behind. *)
Definition followed_by (g1 g2 : grammar) (n : bytes) (x : option ascii) : Prop :=
  match x with
  | Some c => follow g1 n (Some c) \/ follow g1 n None /\ first g2 [NT (start g2)] c
  | None => follow g1 n None /\ nullable g2 [NT (start g2)]
  end.

(** The generator's FOLLOW sets ([follow_code]) are right for the rules that can
    be empty. *)
Definition follow_exact (g : grammar) : Prop := forall n x, nullable g [NT n] -> (follow_code g n x <-> follow g n x).
