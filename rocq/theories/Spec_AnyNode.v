(** * Spec_AnyNode: structures of nodes and the finite trees they look like. *)
From Verif Require Import Base Cst.

Section Nodes.
  Context {N : Type}.
  Variable typeOf posOf endOf : N -> gopanic + Z.
  Variable childsOf : N -> gopanic + list N.

  (** [n] is the finite tree [t]: no method panics, and they answer what those of [t] do. *)
  Inductive is_tree : N -> node -> Prop :=
  | is_tree_node n ty pos en l ts :
      typeOf n = inr ty -> posOf n = inr pos -> endOf n = inr en -> childsOf n = inr l ->
      Forall2 is_tree l ts -> is_tree n (Node ty pos en ts).

  (** [t] looks like [n] down to depth [k]: whatever a method of a node above that
      depth answers (if it does not panic), the corresponding node of [t] has. *)
  Fixpoint looks_like (k : nat) (n : N) (t : node) : Prop :=
    match k with
    | O => True
    | S k' =>
        (forall x, typeOf n = inr x -> n_type t = x) /\
        (forall x, posOf n = inr x -> n_pos t = x) /\
        (forall x, endOf n = inr x -> n_end t = x) /\
        (forall l, childsOf n = inr l -> Forall2 (looks_like k') l (n_childs t))
    end.

  (** The nodes that can be reached. *)
  Inductive reaches : N -> N -> Prop :=
  | reaches_self n : reaches n n
  | reaches_child n l c m : childsOf n = inr l -> In c l -> reaches c m -> reaches n m.

  (** Some method of [n] panics with [p]. *)
  Definition method_panics (n : N) (p : gopanic) : Prop :=
    typeOf n = inl p \/ posOf n = inl p \/ endOf n = inl p \/ childsOf n = inl p.

  (** A nil Node: every method call panics. *)
  Definition nil_node (n : N) : Prop :=
    typeOf n = inl PanicNilNode /\ posOf n = inl PanicNilNode /\
    endOf n = inl PanicNilNode /\ childsOf n = inl PanicNilNode.
End Nodes.
