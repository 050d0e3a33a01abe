(** * Spec_Size: size of trees. *)
From Verif Require Import Base Cst.

(** Number of nodes. *)
Fixpoint nodes (t : node) : nat :=
  match t with Node _ _ _ childs => 1 + list_sum (map nodes childs) end.
(** Number of nodes on a longest path: how deep recursion over the tree goes. *)
Fixpoint depth (t : node) : nat :=
  match t with Node _ _ _ childs => 1 + list_max (map depth childs) end.
