(** * Spec_Extend: grammars with further rules at their end. *)
From Verif Require Import Base Ast Spec_Grammar.

(** All names that the grammar uses have a rule in it. *)
Definition self_contained (g : grammar) : Prop :=
  forall n s m, alternative g n s -> In (SNonTerminal m) s -> defined g m.

(** Rules that nothing refers to, which put a byte behind a rule of [g]:
    X ::= B "c"  says that [c] can follow [B]. *)
Definition hint (g : grammar) (r : rule) : Prop :=
  exists B c, defined g B /\ c <> NUL /\ r_tail r = [[SNonTerminal B; STerminal [c]]].
(** [h] consists of such rules and says so for every rule that can be empty and
    every byte of its FOLLOW set that the generator misses in [g]. *)
Definition hints_enough (g h : grammar) : Prop :=
  Forall (hint g) h /\
  forall B c, nullable g [NT B] -> follow g B (Some c) ->
    follow_code g B (Some c) \/
    exists r, In r h /\ r_tail r = [[SNonTerminal B; STerminal [c]]].
