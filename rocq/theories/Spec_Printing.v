(** * Spec_Printing: what grammars look like when printed. *)
From Verif Require Import Base Ast.

(** Symbols of the three kinds that the package defines. *)
Definition own_symbol (s : symbol) : Prop :=
  match s with SUnknown _ => False | _ => True end.

(** The names of a grammar: of its rules, and of the non-terminals in them. *)
Definition occurs (g : grammar) (s : symbol) : Prop :=
  exists r seq, In r g /\ In seq (r_tail r) /\ In s seq.
Definition name_in (g : grammar) (n : bytes) : Prop :=
  (exists r, In r g /\ n = r_head r) \/ occurs g (SNonTerminal n).

(** Only symbols of the package, and no name contains the closing bracket. The
    terminals may consist of any bytes. *)
Definition closed_names (g : grammar) : Prop :=
  (forall s, occurs g s -> own_symbol s) /\ (forall n, name_in g n -> ~ In ">"%char n).

(** The empty terminal replaced by the empty symbol. *)
Definition nothing_for_empty_symbol (s : symbol) : symbol :=
  match s with STerminal [] => SNothing | _ => s end.
Definition nothing_for_empty (g : grammar) : grammar :=
  map (fun r => mkRule (r_head r) (map (map nothing_for_empty_symbol) (r_tail r))) g.

(** Grammars that differ only in how they write the empty terminal, and a rule
    without symbols. *)
Inductive alike_symbol : symbol -> symbol -> Prop :=
| as_same s : alike_symbol s s
| as_empty1 : alike_symbol (STerminal []) SNothing
| as_empty2 : alike_symbol SNothing (STerminal []).
Inductive alike_tail : substitution -> substitution -> Prop :=
| at_symbols a b : Forall2 (Forall2 alike_symbol) a b -> alike_tail a b
| at_none1 : alike_tail [] [[]]
| at_none2 : alike_tail [[]] [].
Definition alike_rule (a b : rule) : Prop := r_head a = r_head b /\ alike_tail (r_tail a) (r_tail b).
Definition alike : grammar -> grammar -> Prop := Forall2 alike_rule.
