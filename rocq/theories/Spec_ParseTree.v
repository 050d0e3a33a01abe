(** * Spec_ParseTree: textbook parse trees, and what Parse makes of them. *)
From Verif Require Import Base Ast Cst Parser Spec_Parse Spec_Tree Spec_Grammar.

(** [ptree g src x p t q]: [t] is a parse tree of symbol [x] for the bytes of
    [src] from offset [p] up to offset [q].  A leaf is a terminal or "nothing";
    an inner node is a rule (its number) with the symbols of one of its
    alternatives, in full: also empty sub-trees are spelled out. *)
Inductive ptree (g : grammar) (src : bytes) : symbol -> nat -> node -> nat -> Prop :=
| pt_terminal t p :
    t <> [] -> text_of src (Z.of_nat p) (Z.of_nat (p + length t)) = t ->
    ptree g src (STerminal t) p (literal_at p (p + length t)) (p + length t)
| pt_nothing p : ptree g src SNothing p (nothing_at p) p
| pt_rule i n s p childs q :
    nth_error (heads g) i = Some n -> alternative g n s ->
    ptrees g src s p childs q ->
    ptree g src (SNonTerminal n) p (mk (Z.of_nat i) p q childs) q
with ptrees (g : grammar) (src : bytes) : sequence -> nat -> list node -> nat -> Prop :=
| pts_nil p : ptrees g src [] p [] p
| pts_cons x s p t m ts q :
    ptree g src x p t m -> ptrees g src s m ts q ->
    ptrees g src (x :: s) p (t :: ts) q.

(** A parse tree of a whole text. *)
Definition parse_tree (g : grammar) (src : bytes) (t : node) : Prop :=
  ptree g src (SNonTerminal (start g)) 0 t (length src).

(** Cutting every rule that derives the empty string down to "nothing". *)
Fixpoint collapse (t : node) : node :=
  match t with
  | Node ty p q childs =>
      if ((0 <=? ty) && (p =? q))%Z then Node ty p q [Node (-2) p q []]
      else Node ty p q (map collapse childs)
  end.
