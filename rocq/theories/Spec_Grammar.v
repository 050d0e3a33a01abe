(** * Spec_Grammar: textbook context-free grammars, FIRST, FOLLOW and LL(1).

    Nothing here refers to the table generator.  A grammar is the AST of
    pkg/bnf; a terminal stands for its bytes, the empty symbol for nothing. *)
From Verif Require Import Base Ast.

(** ** Derivations *)

Inductive gsym : Type := NT (n : bytes) | Ch (c : ascii).
Definition form := list gsym.

Definition sym_form (s : symbol) : form :=
  match s with
  | SNonTerminal n => [NT n]
  | STerminal t => map Ch t
  | SNothing => []
  | SUnknown _ => []
  end.
Definition seq_form (s : sequence) : form := flat_map sym_form s.
Definition chars (w : bytes) : form := map Ch w.

(** [n ::= ... | s | ...] is in the grammar. *)
Definition alternative (g : grammar) (n : bytes) (s : sequence) : Prop :=
  exists r, In r g /\ r_head r = n /\ In s (r_tail r).

(** u => v *)
Inductive yields1 (g : grammar) : form -> form -> Prop :=
| y1 a n s b : alternative g n s -> yields1 g (a ++ NT n :: b) (a ++ seq_form s ++ b).
(** u =>* v *)
Inductive yields (g : grammar) : form -> form -> Prop :=
| ys_refl u : yields g u u
| ys_step u v w : yields1 g u v -> yields g v w -> yields g u w.

(** The start symbol is the head of the first rule. *)
Definition start (g : grammar) : bytes :=
  match g with [] => [] | r :: _ => r_head r end.

(** The language of the grammar. *)
Definition word (g : grammar) (w : bytes) : Prop :=
  g <> [] /\ yields g [NT (start g)] (chars w).

(** ** FIRST, nullable, FOLLOW *)

Definition first (g : grammar) (u : form) (c : ascii) : Prop :=
  exists v, yields g u (Ch c :: v).
Definition nullable (g : grammar) (u : form) : Prop := yields g u [].

(** FOLLOW by sentential forms; [None] is the end of input. *)
Definition follow (g : grammar) (n : bytes) (x : option ascii) : Prop :=
  match x with
  | Some c => exists a b, yields g [NT (start g)] (a ++ NT n :: Ch c :: b)
  | None => exists a, yields g [NT (start g)] (a ++ [NT n])
  end.

(** The parser's reading of a byte: 0 is the end of input. *)
Definition ahead (c : ascii) : option ascii := if Ascii.eqb c NUL then None else Some c.

(** Non-terminals occurring in sentential forms. *)
Definition reachable (g : grammar) (n : bytes) : Prop :=
  exists a b, yields g [NT (start g)] (a ++ NT n :: b).

(** FOLLOW as the least sets closed under the three textbook rules. *)
Inductive follow_rules (g : grammar) : bytes -> option ascii -> Prop :=
| fr_start : g <> [] -> follow_rules g (start g) None
| fr_first A a B b c :
    alternative g A (a ++ SNonTerminal B :: b) -> first g (seq_form b) c ->
    follow_rules g B (Some c)
| fr_end A a B b x :
    alternative g A (a ++ SNonTerminal B :: b) -> nullable g (seq_form b) ->
    follow_rules g A x -> follow_rules g B x.

(** The four rules quoted in the comments of tablegen.go (181-268): they look
    only at the single symbol [X] next to the non-terminal. *)
Inductive follow_code (g : grammar) : bytes -> option ascii -> Prop :=
| fc_rule1 : g <> [] -> follow_code g (start g) None
| fc_rule2 A a B X b c :
    alternative g A (a ++ SNonTerminal B :: X :: b) -> first g (sym_form X) c ->
    follow_code g B (Some c)
| fc_rule3 A a B x :
    alternative g A (a ++ [SNonTerminal B]) -> follow_code g A x -> follow_code g B x
| fc_rule4 A a B X b x :
    alternative g A (a ++ SNonTerminal B :: X :: b) -> nullable g (sym_form X) ->
    follow_code g A x -> follow_code g B x.

(** ** Well-formed grammars *)

Definition heads (g : grammar) : list bytes := map r_head g.
Definition defined (g : grammar) (n : bytes) : Prop := In n (heads g).

(** No terminal contains the byte 0 (which the parser reads as end of input). *)
Definition terminals_nulfree (g : grammar) : Prop :=
  forall n s t, alternative g n s -> In (STerminal t) s -> ~ In NUL t.

Definition wf_symbol (g : grammar) (s : symbol) : Prop :=
  match s with
  | STerminal t => t <> [] /\ ~ In NUL t
  | SNonTerminal n => defined g n
  | SNothing => False
  | SUnknown _ => False
  end.
(** Not empty; the empty symbol only as single symbol of an alternative. *)
Definition wf_sequence (g : grammar) (s : sequence) : Prop :=
  s = [SNothing] \/ (s <> [] /\ Forall (wf_symbol g) s).
Record wf_grammar (g : grammar) : Prop := {
  wf_nonempty : g <> [];
  wf_distinct : NoDup (heads g);
  wf_sequences : forall n s, alternative g n s -> wf_sequence g s }.

(** ** LL(1) *)

(** Two different alternatives of one rule, in order. *)
Definition two_alternatives (g : grammar) (n : bytes) (s1 s2 : sequence) : Prop :=
  exists r l1 l2 l3, In r g /\ r_head r = n /\ r_tail r = l1 ++ s1 :: l2 ++ s2 :: l3.

Definition first_disjoint (g : grammar) : Prop :=
  forall n s1 s2 c, two_alternatives g n s1 s2 ->
    first g (seq_form s1) c -> first g (seq_form s2) c -> False.

(** LL(1) with respect to given FOLLOW sets: alternatives of one rule start
    differently, at most one can be empty, and what follows a rule that can be
    empty starts none of its other alternatives. *)
Record LL1_wrt (F : bytes -> option ascii -> Prop) (g : grammar) : Prop := {
  ll1_first : first_disjoint g;
  ll1_empty : forall n s1 s2, two_alternatives g n s1 s2 ->
     nullable g (seq_form s1) -> nullable g (seq_form s2) -> False;
  ll1_follow : forall n s1 s2 c, two_alternatives g n s1 s2 -> F n (Some c) ->
     (nullable g (seq_form s1) -> ~ first g (seq_form s2) c) /\
     (nullable g (seq_form s2) -> ~ first g (seq_form s1) c) }.

(** LL(1), with FOLLOW by sentential forms. *)
Definition LL1 (g : grammar) : Prop := LL1_wrt (follow g) g.

(** A syntactic condition: a symbol behind a non-terminal that can be empty is
    the last one of its alternative. *)
Definition nullable_follower_last (g : grammar) : Prop :=
  forall A a B X b, alternative g A (a ++ SNonTerminal B :: X :: b) ->
    nullable g (sym_form X) -> b = [].
