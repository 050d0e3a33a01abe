(** * Spec_Grow: grammars with further alternatives and rules. *)
From Verif Require Import Base Ast Spec_Grammar.

(** The second list is the first one with further elements put in anywhere. *)
Inductive put_in {A} : list A -> list A -> Prop :=
| pi_nil : put_in [] []
| pi_keep x l l' : put_in l l' -> put_in (x :: l) (x :: l')
| pi_new x l l' : put_in l l' -> put_in l (x :: l').

(** The rules of the first grammar, in order, some with further alternatives,
    then possibly further rules. *)
Definition grows (g g' : grammar) : Prop :=
  exists base more, g' = base ++ more /\
    Forall2 (fun r r' => r_head r' = r_head r /\ put_in (r_tail r) (r_tail r')) g base.

(** No rule that can be empty starts with a byte that can follow it. *)
Definition starts_apart (g : grammar) (F : bytes -> option ascii -> Prop) : Prop :=
  forall n c, nullable g [NT n] -> first g [NT n] c -> ~ F n (Some c).
