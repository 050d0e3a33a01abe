(** * Spec_Repeat: repetition, options and lists, written as rules. *)
From Verif Require Import Base Ast Cst Spec_Tree Spec_Grammar.

(** The words that a sequence of symbols stands for. *)
Definition sequence_word (g : grammar) (s : sequence) (w : bytes) : Prop := yields g (seq_form s) (chars w).

(** The only alternatives of [l] are [body l] and nothing: [l ::= body l | ""]. *)
Definition repeats (g : grammar) (l : bytes) (body : sequence) : Prop :=
  forall s, alternative g l s <-> s = body ++ [SNonTerminal l] \/ s = [SNothing].
(** [o ::= body | ""] *)
Definition optional (g : grammar) (o : bytes) (body : sequence) : Prop :=
  forall s, alternative g o s <-> s = body \/ s = [SNothing].
(** [l ::= x m] with [m ::= sep x m | ""] *)
Definition separated (g : grammar) (l m : bytes) (x : symbol) (sep : bytes) : Prop :=
  (forall s, alternative g l s <-> s = [x; SNonTerminal m]) /\ repeats g m [STerminal sep; x].

(** The children of the node of a repetition but the last, then those of the
    last but its last, and so on. *)
Fixpoint rounds (n : node) : list (list node) :=
  match n with
  | Node _ _ _ childs =>
      (fix walk (before : list node) (l : list node) {struct l} : list (list node) :=
         match l with
         | [] => []
         | [c] => match before with [] => [] | _ => before :: rounds c end
         | c :: l' => walk (before ++ [c]) l'
         end) [] childs
  end.

(** A node for the symbol [x]. *)
Definition node_for (g : grammar) (x : symbol) (n : node) : Prop :=
  match x with
  | SNonTerminal m => exists i, nth_error (heads g) i = Some m /\ n_type n = Z.of_nat i
  | STerminal _ => n_type n = (-1)%Z
  | _ => n_type n = (-2)%Z
  end.
