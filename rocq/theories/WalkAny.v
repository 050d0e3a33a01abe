(** * WalkAny: cst.Walk on arbitrary implementations of Node

    [Cst.walk] is Walk on finite trees of NewNode values. Here a node is any
    value [N] with a Childs method of any behaviour: it may panic (a nil
    interface does), may change the memory [S], may build its children on the
    fly or return a cyclic structure. *)
From Verif Require Import Base Cst.

Section Any.
  Context {V S N C : Type}.
  (** Visit: changes memory and answers the visitor for the children or nil, or
      panics. *)
  Variable visit : V -> S -> N -> gopanic + (S * option V).
  (** Childs: the cells of the returned slice. *)
  Variable childs : S -> N -> gopanic + (S * list C).
  (** The node that a cell holds at the moment it is read. *)
  Variable load : S -> C -> N.

  (** cst.go:46-54 [Walk]. The range expression is evaluated once, its elements
      are read when the loop gets to them (a visitor may have overwritten them).
      Fuel bounds the depth of the recursion. *)
  Fixpoint walk_any (fuel : nat) (v : V) (s : S) (n : N) : gores Empty_set S :=
    match fuel with
    | O => NoFuel
    | Datatypes.S fuel' =>
        match visit v s n with
        | inl p => Panic p
        | inr (s1, None) => Ok s1
        | inr (s1, Some w) =>
            match childs s1 n with
            | inl p => Panic p
            | inr (s2, cells) =>
                (fix each (s : S) (cells : list C) {struct cells} :=
                   match cells with
                   | [] => Ok s
                   | c :: cells' =>
                       match walk_any fuel' w s (load s c) with
                       | Ok s' => each s' cells'
                       | r => r
                       end
                   end) s2 cells
            end
        end
    end.
End Any.
