(** * Spec_Helper: helper rules: a name for a piece of an alternative. *)
From Verif Require Import Base Ast Cst Spec_Grammar.

(** The symbols [u] in place of the name [h]. *)
Definition inline_symbol (h : bytes) (u : sequence) (x : symbol) : sequence :=
  match x with
  | SNonTerminal n => if bytes_eqb n h then u else [x]
  | _ => [x]
  end.
Definition inline (h : bytes) (u : sequence) (s : sequence) : sequence := flat_map (inline_symbol h u) s.
Definition inline_rule (h : bytes) (u : sequence) (r : rule) : rule :=
  mkRule (r_head r) (map (inline h u) (r_tail r)).

(** [g'] is [g] with the helper rule [h ::= u] at its end: with [u] in place of
    [h] everywhere, its other rules are the rules of [g]. *)
Record has_helper (g g' : grammar) (h : bytes) (u : sequence) : Prop := {
  hh_rules : exists g0, g' = g0 ++ [mkRule h [u]] /\ g = map (inline_rule h u) g0;
  hh_new : ~ defined g h;
  hh_wf : wf_sequence g u }.

(** Any number of helper rules, one after the other; a later one may stand for a
    piece of an earlier one. *)
Inductive helpers : grammar -> grammar -> Prop :=
| hs_none g : helpers g g
| hs_one g g1 g2 h u : has_helper g g1 h u -> helpers g1 g2 -> helpers g g2.

(** A tree without its nodes of types [k], [k + 1], ...: the children of such a
    node take its place. *)
Fixpoint splice (k : Z) (t : node) : list node :=
  match t with
  | Node ty p q childs =>
      let childs' := flat_map (splice k) childs in
      if (k <=? ty)%Z then childs' else [Node ty p q childs']
  end.

(** No alternative has more than two symbols. *)
Definition short_alternatives (g : grammar) : Prop := forall n s, alternative g n s -> length s <= 2.
