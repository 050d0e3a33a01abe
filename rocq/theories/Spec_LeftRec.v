(** * Spec_LeftRec: left recursion of tables and of grammars. *)
From Verif Require Import Base Ast Parser Spec_Parse Spec_Grammar.
From Coq Require Import Relations.

Section Table.
  Variable tbl : table.
  Variable c : ascii.

  (** Before byte [c] the items are rewritten to nothing. *)
  Inductive vanishes : list item -> Prop :=
  | vn_nil : vanishes []
  | vn_row n ops l :
      (0 <= n)%Z -> cell tbl n c ops -> vanishes (items ops) -> vanishes l -> vanishes (Row n :: l).

  (** Before byte [c], rewriting row [n] comes to rewriting row [m], no byte
      having been matched. *)
  Definition leads (n m : Z) : Prop :=
    (0 <= n)%Z /\
    exists ops u v, cell tbl n c ops /\ items ops = u ++ Row m :: v /\ vanishes u.

  (** ... and sooner or later to row [n] again. *)
  Definition left_recursive_row (n : Z) : Prop := clos_trans Z leads n n.
End Table.

(** A ::= ...  with  A =>+ A ... *)
Definition left_recursive (g : grammar) (n : bytes) : Prop :=
  exists s v, alternative g n s /\ yields g (seq_form s) (NT n :: v).
