(** * Spec_Convert: searching a syntax tree, and what the converter computes. *)
From Verif Require Import Base Cst Ast FromCst.

Section Search.
  Variable ignored searched : Z -> bool.

  (** The outermost nodes of a searched type that are not inside (or
      themselves) a node of an ignored type, from left to right. *)
  Fixpoint outermost (n : node) : list node :=
    match n with
    | Node ty _ _ childs =>
        if ignored ty then [] else if searched ty then [n] else flat_map outermost childs
    end.

  (** [visible m n]: from the root [n] one gets down to [m] through nodes that
      are neither ignored nor searched. *)
  Inductive visible (m : node) : node -> Prop :=
  | vis_here : visible m m
  | vis_child ty p q childs c :
      ignored ty = false -> searched ty = false -> In c childs -> visible m c ->
      visible m (Node ty p q childs).
End Search.

(** Run a callback on one node after the other until it returns an error. *)
Fixpoint each {S} (f : callback S) (s : S) (l : list node) : gop (S * option fcerror) :=
  match l with
  | [] => Ok (s, None)
  | n :: l' =>
      match f s n with
      | Ok (s', None) => each f s' l'
      | other => other
      end
  end.

(** A node's positions are offsets of the text. *)
Definition inside (text : bytes) (n : node) : Prop :=
  (0 <= n_pos n <= n_end n)%Z /\ (n_end n <= Z.of_nat (length text))%Z.

(** The bindings [b] with another list of ignored node types. *)
Definition with_ignored (l : list Z) (b : bindings) : bindings :=
  mkBindings l (RuleType b) (RuleHeadType b) (RuleTailType b) (ExpressionSequencesType b)
    (SequencesSymbolType b) (SymbolTerminalTypes b) (SymbolNonTerminalType b)
    (EscapeCharacterType b) (EscapeMapping b).
