(** * Spec_Sub: parsing a part of a text on its own. *)
From Verif Require Import Base Ast Cst Spec_Grammar.
From Coq Require Import Permutation.

(** [t] with every position moved [d] bytes to the left. *)
Fixpoint moved (d : Z) (t : node) : node :=
  match t with Node ty p q l => Node ty (p - d) (q - d) (map (moved d) l) end.

(** The same rules, in an order in which the rule of [n] is the first one. *)
Definition restarted (g : grammar) (n : bytes) (g' : grammar) : Prop :=
  Permutation g g' /\ start g' = n.

(** [t'] is [t] with its sub-tree [u] exchanged for [v], which is [d] bytes
    longer: what stands behind moves to the right, nodes around [u] grow. *)
Inductive exchanged (d : Z) (u v : node) : node -> node -> Prop :=
| ex_here : exchanged d u v u v
| ex_child ty p q l1 c c' l2 :
    exchanged d u v c c' ->
    exchanged d u v (Node ty p q (l1 ++ c :: l2))
      (Node ty p (q + d) (l1 ++ c' :: map (moved (- d)) l2)).
