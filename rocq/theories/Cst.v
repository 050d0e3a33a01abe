(** * Cst: model of pkg/cst/cst.go *)
From Verif Require Import Base.

(** cst.go:3-24 [Node]/[node]/[NewNode]: node type, start, end, children.
    Simplification: every node of this type is a [NewNode] value without nil
    children, so trees are finite; other implementations of Node: WalkAny.v. A
    nil child slice and an empty one are not distinguished
    (no modelled code can tell them apart). *)
Inductive node : Type :=
  Node (typei start end_ : Z) (childs : list node).

(** cst.go:26-40 accessors *)
Definition n_type (n : node) : Z := match n with Node t _ _ _ => t end.
Definition n_pos (n : node) : Z := match n with Node _ s _ _ => s end.
Definition n_end (n : node) : Z := match n with Node _ _ e _ => e end.
Definition n_childs (n : node) : list node := match n with Node _ _ _ c => c end.

(** cst.go:42-54 [Visitor] and [Walk].
    A visitor is a value of type [V]; [Visit] may change a state [S] (memory
    reachable by the visitor), may panic, and returns the visitor for the
    children or nil ([None]).  [Panic] stops the traversal. *)
Section Walk.
  Context {V S : Type}.
  Variable visit : V -> S -> node -> gores Empty_set (S * option V).

  Fixpoint walk (v : V) (s : S) (n : node) {struct n} : gores Empty_set S :=
    match n with
    | Node _ _ _ childs =>
        match visit v s n with
        | Ok (s1, None) => Ok s1
        | Ok (s1, Some w) =>
            (fix walk_list (s : S) (l : list node) {struct l} :=
               match l with
               | [] => Ok s
               | c :: l' =>
                   match walk w s c with
                   | Ok s' => walk_list s' l'
                   | r => r
                   end
               end) s1 childs
        | Err e => Err e
        | Panic p => Panic p
        | NoFuel => NoFuel
        end
    end.
End Walk.
