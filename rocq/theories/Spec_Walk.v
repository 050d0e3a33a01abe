(** * Spec_Walk: depth-first, left to right, as a work list

    The memory and the list of what remains to be visited, each entry with the
    visitor to be used. *)
From Verif Require Import Base.

Section Agenda.
  Context {V S N C : Type}.
  Variable visit : V -> S -> N -> gopanic + (S * option V).
  Variable childs : S -> N -> gopanic + (S * list C).
  Variable load : S -> C -> N.

  (** What is to be visited: a given node, or the contents of a cell. *)
  Inductive target := Given (n : N) | Cell (c : C).
  Definition node_of (s : S) (t : target) : N :=
    match t with Given n => n | Cell c => load s c end.
  Definition agenda := list (V * target).

  (** Visit the first node of the list; unless the visitor answers nil, its
      children take its place, in order, with the answered visitor. *)
  Inductive visits_next : agenda * S -> agenda * S -> Prop :=
  | vn_pruned v t rest s s1 :
      visit v s (node_of s t) = inr (s1, None) ->
      visits_next ((v, t) :: rest, s) (rest, s1)
  | vn_children v t rest s s1 w s2 cells :
      visit v s (node_of s t) = inr (s1, Some w) ->
      childs s1 (node_of s t) = inr (s2, cells) ->
      visits_next ((v, t) :: rest, s) (map (fun c => (w, Cell c)) cells ++ rest, s2).

  (** The next visit panics, in Visit or in Childs. *)
  Inductive visit_panics : agenda * S -> gopanic -> Prop :=
  | vp_visit v t rest s p :
      visit v s (node_of s t) = inl p -> visit_panics ((v, t) :: rest, s) p
  | vp_childs v t rest s s1 w p :
      visit v s (node_of s t) = inr (s1, Some w) ->
      childs s1 (node_of s t) = inl p -> visit_panics ((v, t) :: rest, s) p.

  (** [k] visits. *)
  Inductive visits : nat -> agenda * S -> agenda * S -> Prop :=
  | visits_0 x : visits 0 x x
  | visits_S k x y z : visits_next x y -> visits k y z -> visits (Datatypes.S k) x z.
End Agenda.
Arguments Given {N C}. Arguments Cell {N C}.
